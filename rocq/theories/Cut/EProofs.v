From Coq Require Import List ZArith QArith Bool Lia Lqa.
From Verif Require Import Lib.Base Cut.Model Cut.Spec Cut.Proofs.
Import ListNotations.
Open Scope Q_scope.

Lemma maxq_spec a b : (a <= b /\ maxq a b = b) \/ (b <= a /\ maxq a b = a).
Proof. unfold maxq. destruct (ltqP a b); [left|right]; split; auto; lra. Qed.
Lemma minq_spec a b : (a <= b /\ minq a b = a) \/ (b <= a /\ minq a b = b).
Proof. unfold minq. destruct (ltqP b a); [right|left]; split; auto; lra. Qed.

Lemma solve a b z : ~ b == a -> (a <= z <= b \/ b <= z <= a) -> exists t, 0 <= t <= 1 /\ a + t * (b - a) == z.
Proof.
  intros N B. exists ((z - a) / (b - a)). assert (E : (z - a) / (b - a) * (b - a) == z - a) by (field; lra).
  set (t := (z - a) / (b - a)) in *. clearbody t. split; [|lra]. destruct B as [B|B]; split; nra.
Qed.

Lemma between x0 x1 t : 0 <= t <= 1 -> minq x0 x1 <= x0 + t * (x1 - x0) <= maxq x0 x1.
Proof.
  intros T. destruct (minq_spec x0 x1) as [(A & ->)|(A & ->)], (maxq_spec x0 x1) as [(B & ->)|(B & ->)]; split; nra.
Qed.
Lemma min_le_max x0 x1 : minq x0 x1 <= x0 <= maxq x0 x1 /\ minq x0 x1 <= x1 <= maxq x0 x1.
Proof. destruct (minq_spec x0 x1) as [(A & ->)|(A & ->)], (maxq_spec x0 x1) as [(B & ->)|(B & ->)]; lra. Qed.
Lemma max_lub a b z : maxq a b <= z <-> a <= z /\ b <= z.
Proof. destruct (maxq_spec a b) as [(A & ->)|(A & ->)]; lra. Qed.
Lemma min_glb a b z : z <= minq a b <-> z <= a /\ z <= b.
Proof. destruct (minq_spec a b) as [(A & ->)|(A & ->)]; lra. Qed.

Lemma overlap x0 x1 bg en : bg <= en ->
  (maxq (minq x0 x1) (minq bg en) <= minq (maxq x0 x1) (maxq bg en) <-> exists t, 0 <= t <= 1 /\ bg <= x0 + t * (x1 - x0) <= en).
Proof.
  intros BE. assert (E1 : minq bg en == bg) by (destruct (minq_spec bg en) as [(A & ->)|(A & ->)]; lra).
  assert (E2 : maxq bg en == en) by (destruct (maxq_spec bg en) as [(A & ->)|(A & ->)]; lra).
  rewrite max_lub, !min_glb. pose proof (min_le_max x0 x1) as (M1 & M2). rewrite E1, E2. split.
  - intros ((A & B) & (C & D)). destruct (Qeq_dec x1 x0) as [EX|NX].
    + exists 0. split; [lra|]. assert (minq x0 x1 == x0) by (destruct (minq_spec x0 x1) as [(? & ->)|(? & ->)]; lra).
      assert (maxq x0 x1 == x0) by (destruct (maxq_spec x0 x1) as [(? & ->)|(? & ->)]; lra). split; lra.
    + set (z := maxq (minq x0 x1) bg).
      assert (Z : minq x0 x1 <= z <= maxq x0 x1 /\ bg <= z <= en) by (unfold z; destruct (maxq_spec (minq x0 x1) bg) as [(? & ->)|(? & ->)]; lra).
      clearbody z. destruct (solve x0 x1 z NX) as (t & T & X).
      { destruct (minq_spec x0 x1) as [(U & E)|(U & E)], (maxq_spec x0 x1) as [(V & F)|(V & F)]; rewrite E, F in Z; lra. }
      exists t. split; auto. rewrite X. tauto.
  - intros (t & T & X). pose proof (between x0 x1 t T). lra.
Qed.

Lemma horizontal_iff x0 y0 x1 y1 bg en yv : bg <= en ->
  (edge_meets_horizontal x0 y0 x1 y1 bg en yv = true <->
   exists t, 0 <= t <= 1 /\ y0 + t * (y1 - y0) == yv /\ bg <= x0 + t * (x1 - x0) <= en).
Proof.
  intros BE. unfold edge_meets_horizontal.
  assert (SEP : (yv < y0 /\ yv < y1) \/ (y0 < yv /\ y1 < yv) -> ~ exists t, 0 <= t <= 1 /\ y0 + t * (y1 - y0) == yv /\ bg <= x0 + t * (x1 - x0) <= en).
  { intros S (t & T & Y & _). pose proof (between y0 y1 t T) as M. rewrite Y in M.
    destruct (minq_spec y0 y1) as [(A & E)|(A & E)], (maxq_spec y0 y1) as [(B & F)|(B & F)]; rewrite E, F in M; lra. }
  assert (REST : ~ ((yv < y0 /\ yv < y1) \/ (y0 < yv /\ y1 < yv)) ->
    ((if Qeq_bool (y1 - y0) 0 then Qle_bool (maxq (minq x0 x1) (minq bg en)) (minq (maxq x0 x1) (maxq bg en))
      else
      let det_beg := (bg - x0) * (y1 - y0) - (yv - y0) * (x1 - x0) in
      let det_end := (en - x0) * (y1 - y0) - (yv - y0) * (x1 - x0) in
      if ltq 0 det_beg && ltq 0 det_end then false else if ltq det_beg 0 && ltq det_end 0 then false else true) = true <->
     exists t, 0 <= t <= 1 /\ y0 + t * (y1 - y0) == yv /\ bg <= x0 + t * (x1 - x0) <= en)).
  { intros NS. assert (B : y0 <= yv <= y1 \/ y1 <= yv <= y0).
    { destruct (Qlt_le_dec yv y0), (Qlt_le_dec yv y1), (Qlt_le_dec y0 yv), (Qlt_le_dec y1 yv); try lra; exfalso; apply NS; lra. }
    destruct (eqqP (y1 - y0) 0) as [E|E].
    - rewrite Qle_bool_iff, overlap by auto. split.
      + intros (t & T & X). exists t. split; auto. split; auto. rewrite E. lra.
      + intros (t & T & _ & X). eauto.
    - destruct (solve y0 y1 yv ltac:(lra) B) as (t & T & Y). cbn zeta.
      assert (E1 : (bg - x0) * (y1 - y0) - (yv - y0) * (x1 - x0) == (bg - (x0 + t * (x1 - x0))) * (y1 - y0)) by (rewrite <- Y; ring).
      assert (E2 : (en - x0) * (y1 - y0) - (yv - y0) * (x1 - x0) == (en - (x0 + t * (x1 - x0))) * (y1 - y0)) by (rewrite <- Y; ring).
      assert (U : forall t', y0 + t' * (y1 - y0) == yv -> t' == t).
      { intros t' Y'. assert (Z : (t' - t) * (y1 - y0) == 0) by lra. destruct (Qmult_integral _ _ Z); [lra|contradiction]. }
      transitivity (bg <= x0 + t * (x1 - x0) <= en).
      + set (db := (bg - x0) * (y1 - y0) - _) in *. set (de := (en - x0) * (y1 - y0) - _) in *. set (x := x0 + t * (x1 - x0)) in *. clearbody db de x.
        assert (SG : y0 < y1 \/ y1 < y0) by (destruct (Q_dec y0 y1) as [[?|?]|?]; auto; exfalso; apply E; lra).
        destruct (ltqP 0 db), (ltqP 0 de), (ltqP db 0), (ltqP de 0); cbn [andb]; split; intros Q; try discriminate; try reflexivity; try lra; destruct SG; try nra; split; nra.
      + split; [intros X; exists t; auto|]. intros (t' & T' & Y' & X). apply U in Y'. now rewrite Y' in X. }
  destruct (ltqP yv y0) as [A|A], (ltqP yv y1) as [B|B]; cbn [andb].
  { split; [discriminate|]. intros X. exfalso. revert X. apply SEP. auto. }
  all: destruct (ltqP y0 yv) as [C|C], (ltqP y1 yv) as [D|D]; cbn [andb]; try (apply REST; lra).
  all: split; [discriminate|]; intros X; exfalso; revert X; apply SEP; auto.
Qed.

(** From a point [p] inside the box on the way to [b] outside, the border is met. *)
Lemma way_out lo hi p b : lo <= p <= hi -> exists u, 0 <= u <= 1 /\ (forall v, 0 <= v <= u -> lo <= p + v * (b - p) <= hi) /\
  ((lo <= b <= hi /\ u == 1) \/ p + u * (b - p) == lo \/ p + u * (b - p) == hi).
Proof.
  intros P. destruct (Qlt_le_dec hi b) as [H|H]; [|destruct (Qlt_le_dec b lo) as [L|L]].
  - destruct (solve p b hi ltac:(lra) ltac:(lra)) as (u & U & E). exists u. split; auto. split; [|auto]. intros v V. split; nra.
  - destruct (solve p b lo ltac:(lra) ltac:(lra)) as (u & U & E). exists u. split; auto. split; [|auto]. intros v V. split; nra.
  - exists 1. split; [lra|]. split; [intros v V; split; nra|]. left. lra.
Qed.

(** A segment that enters the box and does not end in it crosses one of the four sides. *)
Lemma crosses xl yl xh yh (px py ex ey : Q) : xl <= px <= xh -> yl <= py <= yh -> ~ (xl <= ex <= xh /\ yl <= ey <= yh) ->
  exists u, 0 <= u <= 1 /\ xl <= px + u * (ex - px) <= xh /\ yl <= py + u * (ey - py) <= yh /\
    (px + u * (ex - px) == xl \/ px + u * (ex - px) == xh \/ py + u * (ey - py) == yl \/ py + u * (ey - py) == yh).
Proof.
  intros PX PY N. destruct (way_out xl xh px ex PX) as (u & U & UI & UO). destruct (way_out yl yh py ey PY) as (v & V & VI & VO).
  destruct (Qlt_le_dec u v) as [L|L].
  - exists u. split; auto. split; [apply UI; lra|]. split; [apply VI; lra|]. destruct UO as [(A & B)|[A|A]]; auto. lra.
  - destruct VO as [(A & B)|VO].
    + exists u. split; auto. split; [apply UI; lra|]. split; [apply VI; lra|]. destruct UO as [(C & D)|[C|C]]; auto. tauto.
    + exists v. split; auto. split; [apply UI; lra|]. split; [apply VI; lra|]. tauto.
Qed.

Lemma sides (a b : bool) A B : (a = true <-> A) -> (b = true <-> B) -> (a && b = true <-> A /\ B).
Proof. intros X Y. rewrite andb_true_iff. tauto. Qed.
Lemma ltq_iff a b : ltq a b = true <-> a < b.
Proof. destruct (ltqP a b); split; auto; try discriminate. lra. Qed.
Lemma tested (c x : bool) (C G : Prop) : (c = true <-> C) -> (C -> ~ G) -> (~ C -> (x = true <-> G)) -> ((if c then false else x) = true <-> G).
Proof. intros E F R. destruct c; [split; [discriminate|]; intros g; exfalso; apply F; tauto|]. apply R. intros X. apply E in X. discriminate. Qed.
Lemma tested' (c x : bool) (C G : Prop) : (c = true <-> C) -> (C -> G) -> (~ C -> (x = true <-> G)) -> ((if c then true else x) = true <-> G).
Proof. intros E F R. destruct c; [split; auto; intros _; tauto|]. apply R. intros X. apply E in X. discriminate. Qed.

Lemma box_iff bx by_ ex ey xl yl xh yh : xl <= xh -> yl <= yh ->
  (edge_meets_box bx by_ ex ey xl yl xh yh = true <->
   exists t, 0 <= t <= 1 /\ (xl <= bx + t * (ex - bx) <= xh) /\ (yl <= by_ + t * (ey - by_) <= yh)).
Proof.
  intros LX LY. unfold edge_meets_box.
  pose proof (horizontal_iff bx by_ ex ey xl xh yl LX) as H1. pose proof (horizontal_iff bx by_ ex ey xl xh yh LX) as H2.
  pose proof (horizontal_iff by_ bx ey ex yl yh xl LY) as H3. pose proof (horizontal_iff by_ bx ey ex yl yh xh LY) as H4.
  set (h1 := edge_meets_horizontal bx by_ ex ey xl xh yl) in *. set (h2 := edge_meets_horizontal bx by_ ex ey xl xh yh) in *.
  set (h3 := edge_meets_horizontal by_ bx ey ex yl yh xl) in *. set (h4 := edge_meets_horizontal by_ bx ey ex yl yh xh) in *. clearbody h1 h2 h3 h4.
  set (G := exists t, 0 <= t <= 1 /\ (xl <= bx + t * (ex - bx) <= xh) /\ (yl <= by_ + t * (ey - by_) <= yh)).
  assert (BX : forall t, 0 <= t <= 1 -> minq bx ex <= bx + t * (ex - bx) <= maxq bx ex) by (intros; now apply between).
  assert (BY : forall t, 0 <= t <= 1 -> minq by_ ey <= by_ + t * (ey - by_) <= maxq by_ ey) by (intros; now apply between).
  assert (F1 : xh < bx /\ xh < ex -> ~ G).
  { intros A (t & T & X & Y). specialize (BX t T). destruct (minq_spec bx ex) as [(_ & E)|(_ & E)]; rewrite E in BX; lra. }
  assert (F2 : bx < xl /\ ex < xl -> ~ G).
  { intros A (t & T & X & Y). specialize (BX t T). destruct (maxq_spec bx ex) as [(_ & E)|(_ & E)]; rewrite E in BX; lra. }
  assert (F3 : yh < by_ /\ yh < ey -> ~ G).
  { intros A (t & T & X & Y). specialize (BY t T). destruct (minq_spec by_ ey) as [(_ & E)|(_ & E)]; rewrite E in BY; lra. }
  assert (F4 : by_ < yl /\ ey < yl -> ~ G).
  { intros A (t & T & X & Y). specialize (BY t T). destruct (maxq_spec by_ ey) as [(_ & E)|(_ & E)]; rewrite E in BY; lra. }
  assert (T1 : (xl <= bx /\ bx <= xh /\ yl <= by_ /\ by_ <= yh) -> G) by (intros; exists 0; repeat split; lra).
  assert (T2 : (xl <= ex /\ ex <= xh /\ yl <= ey /\ ey <= yh) -> G) by (intros; exists 1; repeat split; lra).
  assert (T3 : h1 = true \/ h2 = true \/ h3 = true \/ h4 = true -> G).
  { rewrite H1, H2, H3, H4. intros [(t & T & A & B)|[(t & T & A & B)|[(t & T & A & B)|(t & T & A & B)]]]; exists t; repeat split; lra. }
  assert (T4 : ~ (xl <= ex /\ ex <= xh /\ yl <= ey /\ ey <= yh) -> G -> h1 = true \/ h2 = true \/ h3 = true \/ h4 = true).
  { intros N (t & T & X & Y). rewrite H1, H2, H3, H4.
    destruct (crosses xl yl xh yh _ _ ex ey X Y ltac:(lra)) as (u & U & X' & Y' & B).
    set (s := t + u * (1 - t)). assert (Sr : 0 <= s <= 1) by (unfold s; nra).
    assert (EX : bx + t * (ex - bx) + u * (ex - (bx + t * (ex - bx))) == bx + s * (ex - bx)) by (unfold s; ring).
    assert (EY : by_ + t * (ey - by_) + u * (ey - (by_ + t * (ey - by_))) == by_ + s * (ey - by_)) by (unfold s; ring).
    rewrite EX in *. rewrite EY in *. clearbody s.
    destruct B as [B|[B|[B|B]]]; [right; right; left|right; right; right|left|right; left]; exists s; auto. }
  clearbody G. clear BX BY H1 H2 H3 H4.
  assert (D : (if h1 then true else if h2 then true else if h3 then true else if h4 then true else false) = true <-> h1 = true \/ h2 = true \/ h3 = true \/ h4 = true).
  { destruct h1, h2, h3, h4; intuition congruence. }
  apply (tested _ _ (xh < bx /\ xh < ex)); [apply sides; apply ltq_iff|auto|intros _].
  apply (tested _ _ (bx < xl /\ ex < xl)); [apply sides; apply ltq_iff|auto|intros _].
  apply (tested _ _ (yh < by_ /\ yh < ey)); [apply sides; apply ltq_iff|auto|intros _].
  apply (tested _ _ (by_ < yl /\ ey < yl)); [apply sides; apply ltq_iff|auto|intros _].
  apply (tested' _ _ (xl <= bx /\ bx <= xh /\ yl <= by_ /\ by_ <= yh)); [rewrite !andb_true_iff, !Qle_bool_iff; tauto|auto|intros _].
  apply (tested' _ _ (xl <= ex /\ ex <= xh /\ yl <= ey /\ ey <= yh)); [rewrite !andb_true_iff, !Qle_bool_iff; tauto|auto|intros N].
  rewrite D. split; auto.
Qed.
