From Coq Require Import ZArith List Lia Bool.
From Verif Require Import Lib.Base Lib.Img BBox.Box2 Corr.Subdiv Corr.SubSpec.
Import ListNotations.
Local Open Scope Z_scope.

Lemma inb_b_iff b x y : inb_b b x y = true <-> inb b x y.
Proof. unfold inb_b, inb. rewrite !andb_true_iff, !Z.leb_le, !Z.ltb_lt. lia. Qed.
Lemma beq_iff a b : beq a b = true <-> a = b.
Proof.
  unfold beq. rewrite !andb_true_iff, !Z.eqb_eq. destruct a, b; cbn. split; [intros (((-> & ->) & ->) & ->); auto|].
  intros E; injection E; auto.
Qed.

Section P.
Variable worse : Z -> Z -> bool.
Variables (D : img (option (Z * Z))) (kx ky : Z).
Notation has := (has_disparity D).
Notation covers := (covers D).
Notation near := (near_disparity D).
Notation tight := (tight D).

(* the accumulator *)
Definition accd (S : Z * Z -> Prop) (a : option ((Z * Z) * (Z * Z))) : Prop :=
  match a with
  | None => forall d, ~ S d
  | Some (mn, mx) => (forall d, S d -> fst mn <= fst d <= fst mx /\ snd mn <= snd d <= snd mx) /\
      (exists d, S d /\ fst d = fst mn) /\ (exists d, S d /\ fst d = fst mx) /\
      (exists d, S d /\ snd d = snd mn) /\ (exists d, S d /\ snd d = snd mx)
  end.
Lemma accd_ext (S T : Z * Z -> Prop) a : (forall d, S d <-> T d) -> accd S a -> accd T a.
Proof.
  intros E. destruct a as [[mn mx]|]; cbn [accd].
  - intros (A & (d1 & X1 & Y1) & (d2 & X2 & Y2) & (d3 & X3 & Y3) & (d4 & X4 & Y4)). split; [intros d Hd; apply A, E; auto|].
    split; [exists d1|split; [exists d2|split; [exists d3|exists d4]]]; split; auto; apply E; auto.
  - intros A d Hd. apply (A d), E. auto.
Qed.
Lemma ew_add_ok v S a : accd S a -> accd (fun d => S d \/ d = v) (ew_add v a).
Proof.
  destruct a as [[[ax ay] [bx by_]]|]; unfold accd, ew_add, ew1; cbn [fst snd].
  - intros (A & (d1 & X1 & Y1) & (d2 & X2 & Y2) & (d3 & X3 & Y3) & (d4 & X4 & Y4)).
    pose proof (A d1 X1). 
    destruct (fst v <? ax) eqn:E1; [|destruct (fst v >? bx) eqn:E2];
    (destruct (snd v <? ay) eqn:E3; [|destruct (snd v >? by_) eqn:E4]); cbn [fst snd];
    rewrite ?Z.gtb_ltb, ?Z.ltb_lt, ?Z.ltb_ge in *;
    (split; [intros d [Hd| ->]; [specialize (A d Hd); lia|lia]|]);
    repeat split; first [exists v; split; [right; reflexivity|auto; fail] | exists d1; split; [left; auto; fail|auto; fail]
      | exists d2; split; [left; auto; fail|auto; fail] | exists d3; split; [left; auto; fail|auto; fail] | exists d4; split; [left; auto; fail|auto; fail]].
  - intros A. split; [intros d [Hd| ->]; [destruct (A d Hd)|lia]|]. repeat split; exists v; auto.
Qed.

Definition in_box (b : box) (d : Z * Z) : Prop := exists x y, inb b x y /\ has x y d.

Lemma min_max_ok b : (forall x y, inb b x y -> inside D x y) -> exists a, min_max D b = Ok a /\ accd (in_box b) a.
Proof.
  intros Hin. unfold min_max.
  destruct (Z_le_gt_dec (y0 b) (y1 b)) as [Ly|Gy].
  2:{ unfold for_up. replace (Z.to_nat (y1 b - y0 b)) with O by lia. cbn [loop]. exists None. split; auto.
      intros d (x & y & I & _). unfold inb in I. lia. }
  destruct (Z_le_gt_dec (x0 b) (x1 b)) as [Lx|Gx].
  2:{ assert (forall n y, loop n y (fun y a => for_up (x0 b) (x1 b) (fun x a =>
        p <- get D x y ;; Ok (match p with None => a | Some v => ew_add v a end)) a) (@None ((Z * Z) * (Z * Z))) = Ok None) as X.
      { unfold for_up. replace (Z.to_nat (x1 b - x0 b)) with O by lia. induction n; intros; cbn [loop bind]; auto. }
      unfold for_up at 1. exists None. split; [apply X|]. intros d (x & y & I & _). unfold inb in I. lia. }
  destruct (for_up_inv (fun Y a => accd (fun d => exists x y, x0 b <= x < x1 b /\ y0 b <= y < Y /\ has x y d) a)
    (fun y a => for_up (x0 b) (x1 b) (fun x a =>
        p <- get D x y ;; Ok (match p with None => a | Some v => ew_add v a end)) a) (y0 b) (y1 b) None) as (a & E & A); auto.
  - intros d (x & y & ? & ? & _). lia.
  - intros Y a HY A.
    destruct (for_up_inv (fun X a => accd (fun d => exists x y, has x y d /\ x0 b <= x < x1 b /\ y0 b <= y /\ (y < Y \/ (y = Y /\ x < X))) a)
      (fun x a => p <- get D x Y ;; Ok (match p with None => a | Some v => ew_add v a end)) (x0 b) (x1 b) a) as (a' & E & A'); auto.
    + eapply accd_ext; [|exact A]. intros d. split; intros (x & y & X); exists x, y; intuition lia.
    + intros X a1 HX A1. assert (I0 : inside D X Y) by (apply Hin; split; lia). rewrite get_in by auto. cbn [bind].
      eexists. split; [reflexivity|]. destruct (pix D X Y) as [v|] eqn:Ev.
      * eapply accd_ext; [|apply (ew_add_ok v); exact A1]. intros d. split.
        -- intros [(x & y & Z0)| ->]; [exists x, y; intuition lia|]. exists X, Y. split; [split; auto|]. lia.
        -- intros (x & y & Hd & Z0). destruct (Z.eq_dec x X) as [->|]; [destruct (Z.eq_dec y Y) as [->|]|].
           ++ right. destruct Hd as [_ Hd]. congruence.
           ++ left. exists X, y. split; auto. lia.
           ++ left. exists x, y. split; auto. lia.
      * eapply accd_ext; [|exact A1]. intros d. split.
        -- intros (x & y & Z0). exists x, y. intuition lia.
        -- intros (x & y & Hd & Z0). destruct (Z.eq_dec x X) as [->|]; [destruct (Z.eq_dec y Y) as [->|]|].
           ++ exfalso. destruct Hd as [_ Hd]. congruence.
           ++ exists X, y. split; auto. lia.
           ++ exists x, y. split; auto. lia.
    + exists a'. split; auto. eapply accd_ext; [|exact A']. intros d. split; intros (x & y & X); exists x, y; intuition lia.
  - exists a. split; auto. eapply accd_ext; [|exact A]. unfold in_box, inb. intros d. split; intros (x & y & X); exists x, y; intuition lia.
Qed.

(* a range that belongs to a set of disparities *)
Definition fitted (S : Z * Z -> Prop) (r : box) : Prop :=
  (r = box_default /\ forall d, ~ S d) \/
  ((forall d, S d -> inb r (fst d) (snd d)) /\
   (exists d, S d /\ fst d = x0 r) /\ (exists d, S d /\ fst d = x1 r - 1) /\
   (exists d, S d /\ snd d = y0 r) /\ (exists d, S d /\ snd d = y1 r - 1)).
Lemma accd_fitted S mn mx : accd S (Some (mn, mx)) -> fitted S (search_box mn mx).
Proof.
  intros (A & (d1 & X1 & Y1) & (d2 & X2 & Y2) & (d3 & X3 & Y3) & (d4 & X4 & Y4)). right. unfold search_box, inb; cbn [x0 y0 x1 y1].
  split; [intros d Hd; specialize (A d Hd); lia|].
  split; [exists d1; auto|]. split; [exists d2; split; auto; lia|]. split; [exists d3; auto|]. exists d4; split; auto; lia.
Qed.
Lemma quad_search_ok b : (forall x y, inb b x y -> inside D x y) -> exists s, quad_search D b = Ok s /\ fitted (in_box b) s.
Proof.
  intros H. destruct (min_max_ok b H) as (a & E & A). unfold quad_search. rewrite E. cbn [bind].
  destruct a as [[mn mx]|]; eexists; (split; [reflexivity|]); [apply accd_fitted; auto|left; auto].
Qed.
Lemma fitted_ne S r : fitted S r -> beq r box_default = false -> 
  x0 r < x1 r /\ y0 r < y1 r.
Proof.
  intros [[-> _]|(A & (d & X & Y) & _)] N; [discriminate|]. specialize (A d X). unfold inb in A. lia.
Qed.
Lemma fitted_union S T r s : fitted S r -> fitted T s -> fitted (fun d => S d \/ T d) (hull_step r s).
Proof.
  intros HS HT. unfold hull_step. pose proof (fitted_ne _ _ HS) as NS. pose proof (fitted_ne _ _ HT) as NT.
  destruct HT as [[-> Z2]|T'].
  - replace (beq box_default box_default) with true by reflexivity. cbn [negb andb].
    replace (bgrow r box_default) with r by reflexivity.
    destruct HS as [[-> Z1]|(A & (d1 & X1 & Y1) & (d2 & X2 & Y2) & (d3 & X3 & Y3) & (d4 & X4 & Y4))].
    + left. split; auto. intros d [Hd|Hd]; [exact (Z1 d Hd)|exact (Z2 d Hd)].
    + right. split; [intros d [Hd|Hd]; [auto|destruct (Z2 d Hd)]|]. split; [exists d1; auto|]. split; [exists d2; auto|]. split; [exists d3; auto|]. exists d4; auto.
  - assert (B : beq s box_default = false).
    { destruct (beq s box_default) eqn:E; auto. apply beq_iff in E. subst. destruct T' as (A & (d & X & _) & _). specialize (A d X). unfold inb in A. cbn in A. lia. }
    rewrite B. cbn [negb andb]. specialize (NT B).
    destruct HS as [[-> Z1]|S'].
    + replace (beq box_default box_default) with true by reflexivity.
      destruct T' as (A & (d1 & X1 & Y1) & (d2 & X2 & Y2) & (d3 & X3 & Y3) & (d4 & X4 & Y4)).
      right. split; [intros d [Hd|Hd]; [destruct (Z1 d Hd)|auto]|]. split; [exists d1; auto|]. split; [exists d2; auto|]. split; [exists d3; auto|]. exists d4; auto.
    + assert (B' : beq r box_default = false).
      { destruct (beq r box_default) eqn:E; auto. apply beq_iff in E. subst. destruct S' as (A & (d & X & _) & _). specialize (A d X). unfold inb in A. cbn in A. lia. }
      rewrite B'. specialize (NS B').
      assert (Es : bempty s = false) by (apply bempty_false; lia). unfold bgrow. rewrite Es.
      destruct S' as (A & (d1 & X1 & Y1) & (d2 & X2 & Y2) & (d3 & X3 & Y3) & (d4 & X4 & Y4)).
      destruct T' as (A' & (e1 & X1' & Y1') & (e2 & X2' & Y2') & (e3 & X3' & Y3') & (e4 & X4' & Y4')).
      right. unfold inb in *. cbn [x0 y0 x1 y1].
      split; [intros d [Hd|Hd]; [specialize (A d Hd)|specialize (A' d Hd)]; lia|].
      split; [destruct (Z_le_gt_dec (x0 r) (x0 s)); [exists d1|exists e1]; split; auto; lia|].
      split; [destruct (Z_le_gt_dec (x1 s) (x1 r)); [exists d2|exists e2]; split; auto; lia|].
      split; [destruct (Z_le_gt_dec (y0 r) (y0 s)); [exists d3|exists e3]; split; auto; lia|].
      destruct (Z_le_gt_dec (y1 s) (y1 r)); [exists d4|exists e4]; split; auto; lia.
Qed.
Lemma fitted_ext (S T : Z * Z -> Prop) r : (forall d, S d <-> T d) -> fitted S r -> fitted T r.
Proof.
  intros E [[-> Z1]|(A & (d1 & X1 & Y1) & (d2 & X2 & Y2) & (d3 & X3 & Y3) & (d4 & X4 & Y4))].
  - left. split; auto. intros d Hd. apply (Z1 d), E. auto.
  - right. split; [intros d Hd; apply A, E; auto|]. split; [exists d1; split; auto; apply E; auto|].
    split; [exists d2; split; auto; apply E; auto|]. split; [exists d3; split; auto; apply E; auto|]. exists d4; split; auto; apply E; auto.
Qed.
Lemma hull_ok S1 S2 S3 S4 s1 s2 s3 s4 : fitted S1 s1 -> fitted S2 s2 -> fitted S3 s3 -> fitted S4 s4 ->
  fitted (fun d => S1 d \/ S2 d \/ S3 d \/ S4 d) (search_hull s1 s2 s3 s4).
Proof.
  intros F1 F2 F3 F4. unfold search_hull.
  assert (F1' : fitted S1 (if negb (beq s1 box_default) then s1 else box_default)).
  { destruct (beq s1 box_default) eqn:E; cbn [negb]; auto. apply beq_iff in E. subst. auto. }
  pose proof (fitted_union _ _ _ _ (fitted_union _ _ _ _ (fitted_union _ _ _ _ F1' F2) F3) F4) as F.
  eapply fitted_ext; [|exact F]. intros d; tauto.
Qed.

(* one region *)
Lemma times_in_app l m x y : times_in (l ++ m) x y = (times_in l x y + times_in m x y)%nat.
Proof. unfold times_in. rewrite filter_app, app_length. reflexivity. Qed.
Lemma times_in_zero l x y : (forall r, In r l -> ~ inb (fst r) x y) -> times_in l x y = O.
Proof.
  intros H. unfold times_in. induction l; cbn [filter]; auto.
  destruct (inb_b (fst a) x y) eqn:E. { apply inb_b_iff in E. exfalso. apply (H a); auto. left; auto. }
  apply IHl. intros r Hr. apply H. right; auto.
Qed.
Lemma covers_nil (B : Z -> Z -> Prop) : (forall x y d, B x y -> ~ has x y d) -> covers B [].
Proof.
  intros H. split; [intros ? ? ? []|]. split; [intros; cbn; lia|]. split; [|intros ? []].
  intros x y d Hb Hd. destruct (H x y d Hb Hd).
Qed.
Lemma covers_one b r (S : Z * Z -> Prop) : fitted S r ->
  (forall d, in_box b d -> S d) -> (forall d, S d -> near b d) -> covers (inb b) [(b, r)].
Proof.
  intros F S1 S2. split; [|split; [|split]].
  - intros r' x y [<-|[]] I; auto.
  - intros x y. unfold times_in. cbn [filter fst]. destruct (inb_b b x y); cbn; lia.
  - intros x y d Hb Hd. exists (b, r). split; [left; auto|]. split; auto. cbn [snd].
    assert (Sd : S d) by (apply S1; exists x, y; auto).
    destruct F as [[_ Z1]|(A & _)]; [destruct (Z1 d Sd)|auto].
  - intros r' [<-|[]]. cbn [fst snd]. intros u v I.
    destruct F as [[-> _]|(A & (d1 & X1 & Y1) & (d2 & X2 & Y2) & (d3 & X3 & Y3) & (d4 & X4 & Y4))].
    { unfold inb in I. cbn in I. lia. }
    exists d1, d2, d3, d4. repeat split; auto; unfold inb in I; lia.
Qed.
Lemma covers_app (B C : Z -> Z -> Prop) l m : covers B l -> covers C m -> (forall x y, B x y -> C x y -> False) ->
  covers (fun x y => B x y \/ C x y) (l ++ m).
Proof.
  intros (a1 & a2 & a3 & a4) (b1 & b2 & b3 & b4) Dj. split; [|split; [|split]].
  - intros r x y I Hr. apply in_app_or in I. destruct I as [I|I]; [left; eapply a1|right; eapply b1]; eauto.
  - intros x y. rewrite times_in_app. specialize (a2 x y). specialize (b2 x y).
    destruct (times_in l x y) eqn:E1; [lia|]. destruct (times_in m x y) eqn:E2; [lia|]. exfalso.
    assert (forall l, times_in l x y <> O -> exists r, In r l /\ inb (fst r) x y) as X.
    { intros l0 N. unfold times_in in N. destruct (filter (fun r => inb_b (fst r) x y) l0) as [|r f] eqn:F; [cbn in N; lia|].
      assert (In r (filter (fun r => inb_b (fst r) x y) l0)) as I by (rewrite F; left; auto).
      apply filter_In in I. exists r. rewrite <- inb_b_iff. auto. }
    destruct (X l) as (r1 & I1 & J1); [lia|]. destruct (X m) as (r2 & I2 & J2); [lia|].
    apply (Dj x y); eauto.
  - intros x y d [Hb|Hc] Hd; [destruct (a3 x y d Hb Hd) as (r & I & J)|destruct (b3 x y d Hc Hd) as (r & I & J)];
      exists r; (split; [apply in_or_app; auto|auto]).
  - intros r I. apply in_app_or in I. destruct I; auto.
Qed.
Lemma covers_ext (B C : Z -> Z -> Prop) l : (forall x y, B x y <-> C x y) -> covers B l -> covers C l.
Proof.
  intros E (a1 & a2 & a3 & a4). split; [|split; [|split]]; auto.
  - intros r x y I Hr. apply E. eauto.
  - intros x y d Hc. apply a3, E. auto.
Qed.
Lemma covers_merge a b : covers (inb (fst a)) [a] -> covers (inb (fst b)) [b] -> snd a = snd b ->
  (forall x y, inb (fst (merge a b)) x y <-> inb (fst a) x y \/ inb (fst b) x y) ->
  x0 (fst (merge a b)) <= x0 (fst a) -> x1 (fst a) <= x1 (fst (merge a b)) ->
  y0 (fst (merge a b)) <= y0 (fst a) -> y1 (fst a) <= y1 (fst (merge a b)) ->
  covers (fun x y => inb (fst a) x y \/ inb (fst b) x y) [merge a b].
Proof.
  intros (a1 & a2 & a3 & a4) (b1 & b2 & b3 & b4) Es M L1 L2 L3 L4. split; [|split; [|split]].
  - intros r x y [<-|[]] I. apply M. auto.
  - intros x y. unfold times_in. cbn [filter]. destruct (inb_b _ x y); cbn; lia.
  - intros x y d Hb Hd. exists (merge a b). split; [left; auto|]. split; [apply M; auto|].
    unfold merge. cbn [snd]. destruct Hb as [Hb|Hb].
    + destruct (a3 x y d Hb Hd) as (r & [<-|[]] & _ & J). auto.
    + destruct (b3 x y d Hb Hd) as (r & [<-|[]] & _ & J). rewrite Es. auto.
  - intros r [<-|[]] u v I. unfold merge in I. cbn [snd] in I.
    destruct (a4 a (or_introl eq_refl) u v I) as (l & h & t & m & Nl & Nh & Nt & Nm & R).
    assert (W : forall d, near (fst a) d -> near (fst (merge a b)) d).
    { intros d (x & y & Hd & Hx & Hy). exists x, y. split; auto. lia. }
    exists l, h, t, m. repeat split; auto; lia.
Qed.

(* the quadrants *)
Definition quad (b : box) (i : nat) : box :=
  let '(q1, q2, q3, q4) := quads b in match i with 1%nat => q1 | 2%nat => q2 | 3%nat => q3 | _ => q4 end.
Lemma half n : 16 <= n -> 8 <= Z.quot n 2 /\ 2 * Z.quot n 2 <= n /\ n <= 2 * Z.quot n 2 + 1.
Proof. intros H. rewrite Z.quot_div_nonneg by lia. pose proof (Z.div_mod n 2). pose proof (Z.mod_pos_bound n 2). lia. Qed.

Definition big (b : box) : Prop := 16 <= x1 b - x0 b /\ 16 <= y1 b - y0 b.
Lemma quads_cover b x y : big b ->
  (inb b x y <-> inb (quad b 1) x y \/ inb (quad b 2) x y \/ inb (quad b 3) x y \/ inb (quad b 4) x y).
Proof.
  intros [Hx Hy]. apply half in Hx, Hy. unfold quad, quads, inb. cbn [x0 y0 x1 y1].
  generalize dependent (Z.quot (x1 b - x0 b) 2). generalize dependent (Z.quot (y1 b - y0 b) 2). intros. lia.
Qed.
Lemma quads_disjoint b i j x y : big b -> (1 <= i < j)%nat -> (j <= 4)%nat -> inb (quad b i) x y -> inb (quad b j) x y -> False.
Proof.
  intros [Hx Hy] Hi Hj. apply half in Hx, Hy. unfold quad, quads, inb. revert Hx Hy.
  generalize (Z.quot (x1 b - x0 b) 2) (Z.quot (y1 b - y0 b) 2). intros sx sy Hx Hy.
  destruct i as [|[|[|[|i]]]]; try lia; destruct j as [|[|[|[|[|j]]]]]; try lia; cbn [x0 y0 x1 y1]; lia.
Qed.
Lemma quads_merge b i j s t : big b -> (1 <= i < j)%nat -> (j <= 4)%nat -> can_merge (quad b i, s) (quad b j, t) = true ->
  covers (inb (quad b i)) [(quad b i, s)] -> covers (inb (quad b j)) [(quad b j, t)] ->
  covers (fun x y => inb (quad b i) x y \/ inb (quad b j) x y) [merge (quad b i, s) (quad b j, t)].
Proof.
  intros [Hx Hy] Hi Hj C Ca Cb. apply half in Hx, Hy.
  apply andb_true_iff in C. destruct C as [C E]. apply beq_iff in E. cbn [fst snd] in *.
  assert (G : (forall x y, inb (bgrow (quad b i) (quad b j)) x y <-> inb (quad b i) x y \/ inb (quad b j) x y) /\
    x0 (bgrow (quad b i) (quad b j)) <= x0 (quad b i) /\ x1 (quad b i) <= x1 (bgrow (quad b i) (quad b j)) /\
    y0 (bgrow (quad b i) (quad b j)) <= y0 (quad b i) /\ y1 (quad b i) <= y1 (bgrow (quad b i) (quad b j))).
  { clear Ca Cb. assert (bempty (quad b j) = false) as Eb.
    { apply bempty_false. unfold quad, quads. revert Hx Hy. generalize (Z.quot (x1 b - x0 b) 2) (Z.quot (y1 b - y0 b) 2). intros sx sy Hx Hy.
      destruct j as [|[|[|[|[|j]]]]]; try lia; cbn [x0 y0 x1 y1]; lia. }
    unfold bgrow. rewrite Eb. clear Eb. revert C. unfold quad, quads, inb. revert Hx Hy.
    generalize (Z.quot (x1 b - x0 b) 2) (Z.quot (y1 b - y0 b) 2). intros sx sy Hx Hy C.
    rewrite orb_true_iff, !Z.eqb_eq in C.
    destruct i as [|[|[|[|i]]]]; try lia; destruct j as [|[|[|[|[|j]]]]]; try lia; cbn [x0 y0 x1 y1] in *; try lia;
      (split; [intros x y; lia|lia]). }
  destruct G as (G0 & G1 & G2 & G3 & G4). apply covers_merge; auto.
Qed.

Lemma covers_pair (B C : Z -> Z -> Prop) l m : covers B l -> covers C m -> (forall x y, B x y -> C x y -> False) ->
  forall E : Z -> Z -> Prop, (forall x y, E x y <-> B x y \/ C x y) -> covers E (l ++ m).
Proof. intros. eapply covers_ext; [|apply covers_app; eauto]. intros x y. symmetry. auto. Qed.

(* what becomes of the quadrants that failed *)
Definition fails (o1 o2 o3 o4 : bool) (b s1 s2 s3 s4 : box) : list (box * box) :=
  (if o1 then [] else [(quad b 1, s1)]) ++ (if o2 then [] else [(quad b 2, s2)]) ++
  (if o3 then [] else [(quad b 3, s3)]) ++ (if o4 then [] else [(quad b 4, s4)]).
Lemma add_failed_ok b cur o1 o2 o3 o4 s1 s2 s3 s4 : big b ->
  covers (inb (quad b 1)) [(quad b 1, s1)] -> covers (inb (quad b 2)) [(quad b 2, s2)] ->
  covers (inb (quad b 3)) [(quad b 3, s3)] -> covers (inb (quad b 4)) [(quad b 4, s4)] ->
  covers (inb b) [(b, cur)] ->
  covers (fun x y => (o1 = false /\ inb (quad b 1) x y) \/ (o2 = false /\ inb (quad b 2) x y) \/
                     (o3 = false /\ inb (quad b 3) x y) \/ (o4 = false /\ inb (quad b 4) x y))
    (add_failed (b, cur) (fails o1 o2 o3 o4 b s1 s2 s3 s4)).
Proof.
  intros Hb C1 C2 C3 C4 C5.
  assert (Two : forall i j s t, (1 <= i < j)%nat -> (j <= 4)%nat -> covers (inb (quad b i)) [(quad b i, s)] -> covers (inb (quad b j)) [(quad b j, t)] ->
    covers (fun x y => inb (quad b i) x y \/ inb (quad b j) x y) (add_failed (b, cur) [(quad b i, s); (quad b j, t)])).
  { intros i j s t Hi Hj Ci Cj. cbn [add_failed]. destruct (can_merge _ _) eqn:E.
    - apply quads_merge; auto.
    - apply (covers_pair _ _ [_] [_] Ci Cj); [|tauto]. intros x y. apply (quads_disjoint b i j); auto. }
  assert (Three : forall i j k s t u, (1 <= i < j)%nat -> (j < k)%nat -> (k <= 4)%nat -> covers (inb (quad b i)) [(quad b i, s)] ->
    covers (inb (quad b j)) [(quad b j, t)] -> covers (inb (quad b k)) [(quad b k, u)] ->
    covers (fun x y => inb (quad b i) x y \/ inb (quad b j) x y \/ inb (quad b k) x y)
      (add_failed (b, cur) [(quad b i, s); (quad b j, t); (quad b k, u)])).
  { intros i j k s t u Hi Hj Hk Ci Cj Ck.
    assert (Dij : forall x y, inb (quad b i) x y -> inb (quad b j) x y -> False) by (intros x y; apply (quads_disjoint b i j); auto; lia).
    assert (Dik : forall x y, inb (quad b i) x y -> inb (quad b k) x y -> False) by (intros x y; apply (quads_disjoint b i k); auto; lia).
    assert (Djk : forall x y, inb (quad b j) x y -> inb (quad b k) x y -> False) by (intros x y; apply (quads_disjoint b j k); auto; lia).
    cbn [add_failed].
    destruct (can_merge (quad b i, s) (quad b j, t)) eqn:E1.
    { apply (covers_pair _ _ [_] [_] (quads_merge b i j s t Hb ltac:(lia) ltac:(lia) E1 Ci Cj) Ck); [|intros; tauto].
      intros x y [H|H] H'; eauto. }
    destruct (can_merge (quad b j, t) (quad b k, u)) eqn:E2.
    { apply (covers_pair _ _ [_] [_] (quads_merge b j k t u Hb ltac:(lia) ltac:(lia) E2 Cj Ck) Ci); [|intros; tauto].
      intros x y [H|H] H'; eauto. }
    destruct (can_merge (quad b i, s) (quad b k, u)) eqn:E3.
    { apply (covers_pair _ _ [_] [_] (quads_merge b i k s u Hb ltac:(lia) ltac:(lia) E3 Ci Ck) Cj); [|intros; tauto].
      intros x y [H|H] H'; eauto. }
    apply (covers_pair _ (fun x y => inb (quad b j) x y \/ inb (quad b k) x y) [_] [_; _] Ci); [| |intros; tauto].
    - apply (covers_pair _ _ [_] [_] Cj Ck); [auto|tauto].
    - intros x y H [H'|H']; eauto. }
  destruct o1, o2, o3, o4; cbn [fails app].
  all: match goal with
  | |- covers _ (add_failed _ []) => cbn [add_failed]; apply covers_nil; intros x y d [[H _]|[[H _]|[[H _]|[H _]]]]; discriminate
  | |- covers _ (add_failed _ [_]) => cbn [add_failed]; eapply covers_ext; [|eassumption]; cbn beta; intros x y; intuition discriminate
  | |- covers _ (add_failed _ [(quad _ ?i, ?s); (quad _ ?j, ?t)]) =>
      eapply covers_ext; [|apply (Two i j s t); try lia; assumption]; cbn beta; intros x y; intuition discriminate
  | |- covers _ (add_failed _ [(quad _ ?i, ?s); (quad _ ?j, ?t); (quad _ ?k, ?u)]) =>
      eapply covers_ext; [|apply (Three i j k s t u); try lia; assumption]; cbn beta; intros x y; intuition discriminate
  | _ => cbn [add_failed]; eapply covers_ext; [|exact C5]; cbn beta; intros x y; rewrite (quads_cover b x y Hb); intuition auto
  end.
Qed.

(* the whole *)
Definition within_image (b : box) : Prop := 0 <= x0 b /\ 0 <= y0 b /\ x1 b <= icols D /\ y1 b <= irows D.

Lemma quad_within b i : big b -> within_image b -> (1 <= i <= 4)%nat -> within_image (quad b i) /\
  Z.max (x1 (quad b i) - x0 (quad b i)) (y1 (quad b i) - y0 (quad b i)) < Z.max (x1 b - x0 b) (y1 b - y0 b).
Proof.
  intros [Hx Hy] W Hi. apply half in Hx, Hy. unfold within_image, quad, quads in *. revert Hx Hy.
  generalize (Z.quot (x1 b - x0 b) 2) (Z.quot (y1 b - y0 b) 2). intros sx sy Hx Hy.
  destruct i as [|[|[|[|[|i]]]]]; try lia; cbn [x0 y0 x1 y1]; lia.
Qed.

Lemma near_box b d : within_image b -> in_box b d -> near b d.
Proof. intros W (x & y & I & Hd). unfold inb in I. exists x, y. split; auto. lia. Qed.

Lemma bw_big b : bw b <? 16 = false -> bh b <? 16 = false -> big b.
Proof.
  rewrite !Z.ltb_ge. unfold bw, bh, big. destruct (bempty b); lia.
Qed.

Lemma subdivide_step n : forall b fc out, within_image b -> Z.max 0 (Z.max (x1 b - x0 b) (y1 b - y0 b)) < Z.of_nat n -> 0 <= fc ->
  exists ok new, subdivide worse D kx ky n b out fc = Ok (ok, out ++ new) /\
    (ok = true -> covers (inb b) new) /\ (ok = false -> new = [] /\ fc <> 0).
Proof.
  induction n as [|n IH]; intros b fc out W Hs Hfc; [lia|].
  cbn [subdivide].
  destruct ((_ <=? 200) || (bw b <? 16) || (bh b <? 16)) eqn:Small.
  - set (e := bcrop _ _).
    assert (Ie : forall x y, inb e x y -> inside D x y).
    { intros x y I. apply inb_crop in I. destruct I as [_ I]. unfold inb in I. cbn in I. exact I. }
    destruct (min_max_ok e Ie) as (a & -> & A). cbn [bind].
    assert (Sub : forall d, in_box b d -> in_box e d).
    { intros d (x & y & I & Hd). exists x, y. split; auto. apply inb_crop. split.
      - pose proof (inb_nonempty _ _ _ I) as Ne. unfold bexpand. rewrite Ne. unfold inb in *. cbn [x0 y0 x1 y1]. lia.
      - unfold inb, within_image in *. cbn [x0 y0 x1 y1]. lia. }
    assert (Near : forall d, in_box e d -> near b d).
    { intros d (x & y & I & Hd). apply inb_crop in I. destruct I as [I _]. exists x, y. split; auto.
      unfold bexpand in I. destruct (bempty b); unfold inb in I; cbn [x0 y0 x1 y1] in I; lia. }
    destruct a as [[mn mx]|].
    + exists true, [(b, search_box mn mx)]. split; [reflexivity|]. split; [|discriminate]. intros _.
      apply (covers_one b _ (in_box e)); auto. apply accd_fitted. auto.
    + exists true, []. rewrite app_nil_r. split; [reflexivity|]. split; [|discriminate]. intros _.
      apply covers_nil. intros x y d I Hd. apply (A d), Sub. exists x, y. auto.
  - apply orb_false_iff in Small. destruct Small as [Small H3]. apply orb_false_iff in Small. destruct Small as [_ H2].
    pose proof (bw_big b H2 H3) as Big.
    replace (quads b) with (quad b 1, quad b 2, quad b 3, quad b 4) by reflexivity.
    assert (Q : forall i, (1 <= i <= 4)%nat -> within_image (quad b i) /\
      Z.max 0 (Z.max (x1 (quad b i) - x0 (quad b i)) (y1 (quad b i) - y0 (quad b i))) < Z.of_nat n /\
      exists s, quad_search D (quad b i) = Ok s /\ fitted (in_box (quad b i)) s /\
        covers (inb (quad b i)) [(quad b i, s)]).
    { intros i Hi. destruct (quad_within b i Big W Hi) as [Wi Si]. split; auto. split; [unfold big in Big; lia|].
      destruct (quad_search_ok (quad b i)) as (s & E & F).
      { intros x y I. unfold inb, within_image in *. split; lia. }
      exists s. split; auto. split; auto. apply (covers_one _ _ (in_box (quad b i))); auto. intros d. apply near_box. auto. }
    destruct (Q 1%nat ltac:(lia)) as (W1 & M1 & s1 & E1 & F1 & C1). destruct (Q 2%nat ltac:(lia)) as (W2 & M2 & s2 & E2 & F2 & C2).
    destruct (Q 3%nat ltac:(lia)) as (W3 & M3 & s3 & E3 & F3 & C3). destruct (Q 4%nat ltac:(lia)) as (W4 & M4 & s4 & E4 & F4 & C4).
    rewrite E1, E2, E3, E4. cbn [bind].
    set (cur := search_hull s1 s2 s3 s4). set (split_ := _ + _ + _ + _). set (current := area2 cur * _).
    assert (Dj : forall i j x y, (1 <= i < j)%nat -> (j <= 4)%nat -> inb (quad b i) x y -> inb (quad b j) x y -> False).
    { intros. eapply (quads_disjoint b i j); eauto. }
    assert (C5 : covers (inb b) [(b, cur)]).
    { apply (covers_one _ _ (in_box b)); auto; [|intros d; apply near_box; auto].
      eapply fitted_ext; [|apply hull_ok; [exact F1|exact F2|exact F3|exact F4]]. cbn beta. intros d. split.
      - intros [(x & y & I & H)|[(x & y & I & H)|[(x & y & I & H)|(x & y & I & H)]]]; exists x, y; (split; [|auto]); apply (quads_cover b x y Big); auto.
      - intros (x & y & I & H). apply (quads_cover b x y Big) in I. destruct I as [I|[I|[I|I]]];
          [left|right; left|right; right; left|right; right; right]; exists x, y; auto. }
    destruct (worse split_ current && (fc =? 0)) eqn:Dec.
    + destruct (IH (quad b 1) (fc + 1) out W1 M1 ltac:(lia)) as (o1 & n1 & -> & T1 & U1). cbn [bind].
      destruct (IH (quad b 2) (fc + 1) (out ++ n1) W2 M2 ltac:(lia)) as (o2 & n2 & -> & T2 & U2). cbn [bind].
      destruct (IH (quad b 3) (fc + 1) ((out ++ n1) ++ n2) W3 M3 ltac:(lia)) as (o3 & n3 & -> & T3 & U3). cbn [bind].
      destruct (IH (quad b 4) (fc + 1) (((out ++ n1) ++ n2) ++ n3) W4 M4 ltac:(lia)) as (o4 & n4 & -> & T4 & U4). cbn [bind].
      exists true. eexists. split; [rewrite <- !app_assoc; reflexivity|]. split; [|discriminate]. intros _.
      assert (G : forall o new i, (o = true -> covers (inb (quad b i)) new) -> (o = false -> new = [] /\ fc + 1 <> 0) ->
        covers (fun x y => o = true /\ inb (quad b i) x y) new).
      { intros o new i T U. destruct o.
        - eapply covers_ext; [|apply T; reflexivity]. intros x y. tauto.
        - destruct (U eq_refl) as [-> _]. apply covers_nil. intros x y d [X _]. discriminate. }
      pose proof (add_failed_ok b cur o1 o2 o3 o4 s1 s2 s3 s4 Big C1 C2 C3 C4 C5) as AF.
      eapply covers_ext; [|eapply (covers_app _ _ _ _ (G _ _ _ T1 U1)); [eapply (covers_app _ _ _ _ (G _ _ _ T2 U2));
        [eapply (covers_app _ _ _ _ (G _ _ _ T3 U3)); [eapply (covers_app _ _ _ _ (G _ _ _ T4 U4) AF)|]|]|]].
      * cbn beta. intros x y. rewrite (quads_cover b x y Big). destruct o1, o2, o3, o4; intuition discriminate.
      * cbn beta. intros x y [-> I4]. intros [[X I]|[[X I]|[[X I]|[X I]]]]; try discriminate;
          first [apply (Dj 1%nat 4%nat x y ltac:(lia) ltac:(lia) I I4) | apply (Dj 2%nat 4%nat x y ltac:(lia) ltac:(lia) I I4) | apply (Dj 3%nat 4%nat x y ltac:(lia) ltac:(lia) I I4)].
      * cbn beta. intros x y [-> I3]. intros [[_ I4]|[[X I]|[[X I]|[[X I]|[X I]]]]]; try discriminate;
          first [apply (Dj 3%nat 4%nat x y ltac:(lia) ltac:(lia) I3 I4) | apply (Dj 1%nat 3%nat x y ltac:(lia) ltac:(lia) I I3) | apply (Dj 2%nat 3%nat x y ltac:(lia) ltac:(lia) I I3) | apply (Dj 3%nat 4%nat x y ltac:(lia) ltac:(lia) I3 I)].
      * cbn beta. intros x y [-> I2]. intros [[_ I4]|[[_ I4]|[[X I]|[[X I]|[[X I]|[X I]]]]]]; try discriminate;
          first [apply (Dj 2%nat 3%nat x y ltac:(lia) ltac:(lia) I2 I4) | apply (Dj 2%nat 4%nat x y ltac:(lia) ltac:(lia) I2 I4) | apply (Dj 1%nat 2%nat x y ltac:(lia) ltac:(lia) I I2) | apply (Dj 2%nat 3%nat x y ltac:(lia) ltac:(lia) I2 I) | apply (Dj 2%nat 4%nat x y ltac:(lia) ltac:(lia) I2 I)].
      * cbn beta. intros x y [-> I1]. intros [[_ I4]|[[_ I4]|[[_ I4]|[[X I]|[[X I]|[[X I]|[X I]]]]]]]; try discriminate;
          first [apply (Dj 1%nat 2%nat x y ltac:(lia) ltac:(lia) I1 I4) | apply (Dj 1%nat 3%nat x y ltac:(lia) ltac:(lia) I1 I4) | apply (Dj 1%nat 4%nat x y ltac:(lia) ltac:(lia) I1 I4)
            | apply (Dj 1%nat 2%nat x y ltac:(lia) ltac:(lia) I1 I) | apply (Dj 1%nat 3%nat x y ltac:(lia) ltac:(lia) I1 I) | apply (Dj 1%nat 4%nat x y ltac:(lia) ltac:(lia) I1 I)].
    + destruct (worse split_ current && (0 <? fc)) eqn:Dec2.
      * exists false, []. rewrite app_nil_r. split; [reflexivity|]. split; [discriminate|]. intros _. split; auto.
        apply andb_true_iff in Dec2. destruct Dec2 as [_ Dec2]. apply Z.ltb_lt in Dec2. lia.
      * destruct (IH (quad b 1) 0 out W1 M1 ltac:(lia)) as (o1 & n1 & -> & T1 & U1). cbn [bind].
        destruct (IH (quad b 2) 0 (out ++ n1) W2 M2 ltac:(lia)) as (o2 & n2 & -> & T2 & U2). cbn [bind].
        destruct (IH (quad b 3) 0 ((out ++ n1) ++ n2) W3 M3 ltac:(lia)) as (o3 & n3 & -> & T3 & U3). cbn [bind].
        destruct (IH (quad b 4) 0 (((out ++ n1) ++ n2) ++ n3) W4 M4 ltac:(lia)) as (o4 & n4 & -> & T4 & U4). cbn [bind].
        exists true. eexists. split; [rewrite <- !app_assoc; reflexivity|]. split; [|discriminate]. intros _.
        assert (G : forall o new i, (o = true -> covers (inb (quad b i)) new) -> (o = false -> new = [] /\ 0 <> 0) -> covers (inb (quad b i)) new).
        { intros o new i T U. destruct o; auto. destruct (U eq_refl). lia. }
        eapply covers_ext; [|eapply (covers_app _ _ _ _ (G _ _ _ T1 U1)); [eapply (covers_app _ _ _ _ (G _ _ _ T2 U2));
          [eapply (covers_app _ _ _ _ (G _ _ _ T3 U3) (G _ _ _ T4 U4))|]|]].
        -- cbn beta. intros x y. rewrite (quads_cover b x y Big). tauto.
        -- intros x y I J. apply (Dj 3%nat 4%nat x y ltac:(lia) ltac:(lia) I J).
        -- cbn beta. intros x y I [J|J]; [apply (Dj 2%nat 3%nat x y ltac:(lia) ltac:(lia) I J)|apply (Dj 2%nat 4%nat x y ltac:(lia) ltac:(lia) I J)].
        -- cbn beta. intros x y I [J|[J|J]]; [apply (Dj 1%nat 2%nat x y ltac:(lia) ltac:(lia) I J)|apply (Dj 1%nat 3%nat x y ltac:(lia) ltac:(lia) I J)|apply (Dj 1%nat 4%nat x y ltac:(lia) ltac:(lia) I J)].
Qed.
End P.
