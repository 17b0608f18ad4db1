(* The lines of one direction: every pixel is on exactly one of them. *)
From Coq Require Import ZArith List Bool Lia.
From Verif Require Import Lib.Base Lib.Lists ImgMem.Model ImgMem.Spec ImgMem.Props Lib.Img Sgm.Model Sgm.Spec.
Import ListNotations.
Local Open Scope Z_scope.

Lemma in_imgb_iff w h c r : in_imgb w h c r = true <-> in_img w h (c, r).
Proof. unfold in_imgb, in_img. cbn [fst snd]. rewrite !andb_true_iff, !Z.leb_le, !Z.ltb_lt. lia. Qed.

Lemma in_pairs_x (f : Z -> Z * Z) a b p : In p (map f (zrange a b)) <-> exists i, a <= i < b /\ p = f i.
Proof.
  rewrite in_map_iff. split; intros (i & A & B); exists i; rewrite in_zrange in *; auto.
Qed.

Section G.
Variable g : sgm.
Hypothesis HW : 0 < ocols g.
Hypothesis HH : 0 < orows g.
Notation w := (ocols g).
Notation h := (orows g).

Lemma dir_starts_iff d x y : In (x, y) (dir_starts g d) <->
  in_img w h (x, y) /\ ~ in_img w h (x - fst (heading d), y - snd (heading d)).
Proof.
  unfold in_img. destruct d; cbn [dir_starts heading fst snd]; rewrite ?in_app_iff, !in_pairs_x; split.
  all: try (intros [[i [Hi E]]|[i [Hi E]]]; injection E as -> ->; lia).
  all: try (intros [i [Hi E]]; injection E as -> ->; lia).
  all: intros [[A B] C].
  - destruct (Z.eq_dec y (h - 1)); [left; exists x|right; exists y]; split; try lia; f_equal; lia.
  - exists x. split; [lia|f_equal; lia].
  - destruct (Z.eq_dec y (h - 1)); [left; exists x|right; exists y]; split; try lia; f_equal; lia.
  - exists y. split; [lia|f_equal; lia].
  - exists y. split; [lia|f_equal; lia].
  - destruct (Z.eq_dec y 0); [left; exists x|right; exists y]; split; try lia; f_equal; lia.
  - exists x. split; [lia|f_equal; lia].
  - destruct (Z.eq_dec y 0); [left; exists x|right; exists y]; split; try lia; f_equal; lia.
Qed.

Lemma nodup_map_inj {A B} (f : A -> B) l : (forall x y, In x l -> In y l -> f x = f y -> x = y) -> NoDup l -> NoDup (map f l).
Proof.
  intros Hf. induction 1; cbn [map]; constructor.
  - rewrite in_map_iff. intros (y & E & I). assert (y = x) by (apply Hf; [right; auto|left; auto|auto]). subst. auto.
  - apply IHNoDup. intros; apply Hf; auto; right; auto.
Qed.
Lemma nodup_app {A} (l l' : list A) : NoDup l -> NoDup l' -> (forall x, In x l -> In x l' -> False) -> NoDup (l ++ l').
Proof.
  induction 1; cbn [app]; intros N D; auto. constructor.
  - rewrite in_app_iff. intros [I|I]; [auto|]. apply (D x); [left; auto|auto].
  - apply IHNoDup; auto. intros y I; apply D; right; auto.
Qed.
Lemma dir_starts_nodup d : NoDup (dir_starts g d).
Proof.
  destruct d; cbn [dir_starts]; try (apply nodup_app);
    try (apply nodup_map_inj; [intros a b _ _ E; congruence|apply zrange_nodup]).
  all: intros p; rewrite !in_pairs_x; intros [i [Hi E]] [j [Hj E']]; rewrite E in E'; injection E' as E1 E2; lia.
Qed.

Lemma l_walk_det f1 : forall f2 a l1 l2, l_walk f1 a = Ok l1 -> l_walk f2 a = Ok l2 -> l1 = l2.
Proof.
  induction f1; intros f2 a l1 l2 E1 E2; [discriminate|]. destruct f2; [discriminate|].
  cbn [l_walk] in *. destruct (l_good a); [|congruence].
  destruct (l_walk f1 (l_inc a)) eqn:A1; cbn [bind] in E1; try discriminate.
  destruct (l_walk f2 (l_inc a)) eqn:A2; cbn [bind] in E2; try discriminate.
  rewrite (IHf1 _ _ _ _ A1 A2) in E1. congruence.
Qed.
Lemma l_walk_mono f1 : forall f2 a l, (f1 <= f2)%nat -> l_walk f1 a = Ok l -> l_walk f2 a = Ok l.
Proof.
  induction f1; intros f2 a l Hf E; [discriminate|]. destruct f2; [lia|].
  cbn [l_walk] in *. destruct (l_good a); [|auto].
  destruct (l_walk f1 (l_inc a)) eqn:A1; cbn [bind] in E; try discriminate.
  rewrite (IHf1 f2 _ _ ltac:(lia) A1). auto.
Qed.

Definition line_of (d : dir8) (st : Z * Z) (l : list (Z * Z)) : Prop :=
  exists n, l = map (on_line (fst st) (snd st) d) (zseq 0 n) /\
    (forall k, 0 <= k < Z.of_nat n -> in_img w h (on_line (fst st) (snd st) d k)) /\
    ~ in_img w h (on_line (fst st) (snd st) d (Z.of_nat n)).

Lemma walk_line fuel d st l : l_walk fuel (mk_line (fst st) (snd st) d w h) = Ok l -> line_of d st l.
Proof.
  intros E. destruct (line_iterator_walk (fst st) (snd st) d w h) as (f & n & E' & A & B).
  exists n. split; [|auto]. eapply l_walk_det; eauto.
Qed.
Lemma walk_exists d (sts : list (Z * Z)) : exists fuel, forall st, In st sts ->
  exists l, l_walk fuel (mk_line (fst st) (snd st) d w h) = Ok l.
Proof.
  induction sts as [|st sts [f IH]]; [exists 0%nat; intros st []|].
  destruct (line_iterator_walk (fst st) (snd st) d w h) as (f' & n & E & _).
  exists (Nat.max f f'). intros s [<-|I].
  - eexists. eapply l_walk_mono; [|exact E]. lia.
  - destruct (IH s I) as (l & El). exists l. eapply l_walk_mono; [|exact El]. lia.
Qed.

Lemma heading_nz d : fst (heading d) <> 0 \/ snd (heading d) <> 0.
Proof. destruct d; cbn; lia. Qed.
Lemma heading_small d : -1 <= fst (heading d) <= 1 /\ -1 <= snd (heading d) <= 1.
Proof. destruct d; cbn; lia. Qed.
Lemma on_line_inj x y d k k' : on_line x y d k = on_line x y d k' -> k = k'.
Proof.
  unfold on_line. intros E. injection E as E1 E2. destruct (heading_nz d); nia.
Qed.
Lemma on_line_prev x y d k : (fst (on_line x y d k) - fst (heading d), snd (on_line x y d k) - snd (heading d)) = on_line x y d (k - 1).
Proof. unfold on_line. cbn [fst snd]. f_equal; ring. Qed.

(* the number of pixels of a line *)
Lemma line_len d st n : (forall k, 0 <= k < Z.of_nat n -> in_img w h (on_line (fst st) (snd st) d k)) ->
  Z.of_nat n <= Z.max w h.
Proof.
  intros A. destruct n; [lia|].
  pose proof (A 0 ltac:(lia)) as A0. pose proof (A (Z.of_nat n) ltac:(lia)) as A1.
  unfold in_img, on_line in *. cbn [fst snd] in *. pose proof (heading_nz d). pose proof (heading_small d).
  assert (fst (heading d) = -1 \/ fst (heading d) = 0 \/ fst (heading d) = 1) as [F|[F|F]] by lia;
  assert (snd (heading d) = -1 \/ snd (heading d) = 0 \/ snd (heading d) = 1) as [S|[S|S]] by lia; rewrite F, S in *; lia.
Qed.

Lemma zseq_snoc n : forall a, zseq a (S n) = zseq a n ++ [a + Z.of_nat n].
Proof.
  intros a. replace (S n) with (n + 1)%nat by lia. rewrite zseq_app. reflexivity.
Qed.

(* going back from pixel number k of a line gives the pixels before it *)
Lemma back_line d st k : In st (dir_starts g d) ->
  (forall j, 0 <= j <= Z.of_nat k -> in_img w h (on_line (fst st) (snd st) d j)) -> forall fuel, (k + 1 <= fuel)%nat ->
  back fuel w h d (fst (on_line (fst st) (snd st) d (Z.of_nat k))) (snd (on_line (fst st) (snd st) d (Z.of_nat k)))
  = rev (map (on_line (fst st) (snd st) d) (zseq 0 (S k))).
Proof.
  intros Is. induction k as [|k IH]; intros A fuel Hf.
  - destruct fuel as [|fuel]; [lia|]. cbn [back zseq map rev app].
    pose proof (A 0 ltac:(lia)) as A0.
    destruct (on_line (fst st) (snd st) d (Z.of_nat 0)) as [c r] eqn:E. cbn [fst snd].
    change (Z.of_nat 0) with 0 in E. rewrite E in *. rewrite (proj2 (in_imgb_iff w h c r)) by auto. f_equal.
    assert (Est : (c, r) = st) by (rewrite <- E; destruct st; unfold on_line; cbn [fst snd]; f_equal; ring).
    rewrite <- Est in Is. apply dir_starts_iff in Is as [_ No].
    destruct fuel; cbn [back]; auto.
    destruct (in_imgb w h (c - fst (heading d)) (r - snd (heading d))) eqn:Ei; auto. apply in_imgb_iff in Ei. contradiction.
  - destruct fuel as [|fuel]; [lia|]. rewrite zseq_snoc, map_app, rev_app_distr. cbn [map rev app back].
    pose proof (A (Z.of_nat (S k)) ltac:(lia)) as A0.
    replace (0 + Z.of_nat (S k)) with (Z.of_nat (S k)) by lia.
    pose proof (on_line_prev (fst st) (snd st) d (Z.of_nat (S k))) as P.
    destruct (on_line (fst st) (snd st) d (Z.of_nat (S k))) as [c r] eqn:E. cbn [fst snd] in *.
    rewrite (proj2 (in_imgb_iff w h c r)) by auto. f_equal.
    replace (Z.of_nat (S k) - 1) with (Z.of_nat k) in P by lia.
    rewrite <- IH with (fuel := fuel); [|intros j Hj; apply A; lia|lia]. rewrite <- P. reflexivity.
Qed.

(* every pixel is on a line *)
Lemma on_some_line d : forall fuel c r, (Z.to_nat (Z.max w h) <= fuel)%nat \/ (exists j, (j < fuel)%nat /\ ~ in_img w h (c - Z.of_nat j * fst (heading d), r - Z.of_nat j * snd (heading d))) ->
  in_img w h (c, r) ->
  exists st k, In st (dir_starts g d) /\ (c, r) = on_line (fst st) (snd st) d (Z.of_nat k) /\
    (forall j, 0 <= j <= Z.of_nat k -> in_img w h (on_line (fst st) (snd st) d j)).
Proof.
  assert (X : forall fuel c r, (exists j, (j < fuel)%nat /\ ~ in_img w h (c - Z.of_nat j * fst (heading d), r - Z.of_nat j * snd (heading d))) ->
    in_img w h (c, r) ->
    exists st k, In st (dir_starts g d) /\ (c, r) = on_line (fst st) (snd st) d (Z.of_nat k) /\
      (forall j, 0 <= j <= Z.of_nat k -> in_img w h (on_line (fst st) (snd st) d j))).
  { induction fuel as [|fuel IH]; intros c r (j & Hj & No) I; [lia|].
    destruct (in_imgb w h (c - fst (heading d)) (r - snd (heading d))) eqn:E.
    - apply in_imgb_iff in E. destruct j as [|j].
      + exfalso. apply No. replace (Z.of_nat 0) with 0 by lia. rewrite !Z.mul_0_l, !Z.sub_0_r. auto.
      + destruct (IH (c - fst (heading d)) (r - snd (heading d))) as (st & k & Is & Ek & A); auto.
        { exists j. split; [lia|]. intros C. apply No.
          replace (c - Z.of_nat (S j) * fst (heading d)) with (c - fst (heading d) - Z.of_nat j * fst (heading d)) by lia.
          replace (r - Z.of_nat (S j) * snd (heading d)) with (r - snd (heading d) - Z.of_nat j * snd (heading d)) by lia. auto. }
        exists st, (S k). split; auto.
        assert (EE : (c, r) = on_line (fst st) (snd st) d (Z.of_nat (S k))).
        { unfold on_line in Ek |- *. injection Ek as E1 E2. f_equal; lia. }
        split; auto. intros i Hi. destruct (Z.eq_dec i (Z.of_nat (S k))) as [->|Ni]; [rewrite <- EE; auto|].
        apply A. lia.
    - exists (c, r), 0%nat. cbn [fst snd]. split; [apply dir_starts_iff; split; auto|].
      + intros C. apply in_imgb_iff in C. congruence.
      + assert (EE : (c, r) = on_line c r d 0) by (unfold on_line; f_equal; ring).
        change (Z.of_nat 0) with 0. split; auto. intros i Hi. replace i with 0 by lia. rewrite <- EE. auto. }
  intros fuel c r [Hf|Hj] I; [|eapply X; eauto].
  apply (X (S (Z.to_nat (Z.max w h))) c r); auto. exists (Z.to_nat (Z.max w h)). split; [lia|].
  unfold in_img in *. cbn [fst snd] in *. pose proof (heading_nz d). pose proof (heading_small d).
  rewrite Z2Nat.id by lia.
  assert (fst (heading d) = -1 \/ fst (heading d) = 0 \/ fst (heading d) = 1) as [F|[F|F]] by lia;
  assert (snd (heading d) = -1 \/ snd (heading d) = 0 \/ snd (heading d) = 1) as [S|[S|S]] by lia; rewrite F, S in *; lia.
Qed.

(* and on one only *)
Lemma one_line d st st' k k' : In st (dir_starts g d) -> In st' (dir_starts g d) ->
  0 <= k -> 0 <= k' ->
  (forall j, 0 <= j <= k -> in_img w h (on_line (fst st) (snd st) d j)) ->
  (forall j, 0 <= j <= k' -> in_img w h (on_line (fst st') (snd st') d j)) ->
  on_line (fst st) (snd st) d k = on_line (fst st') (snd st') d k' -> st = st' /\ k = k'.
Proof.
  assert (X : forall st st' k k', In st (dir_starts g d) -> In st' (dir_starts g d) -> 0 <= k <= k' ->
    (forall j, 0 <= j <= k' -> in_img w h (on_line (fst st') (snd st') d j)) ->
    on_line (fst st) (snd st) d k = on_line (fst st') (snd st') d k' -> st = st' /\ k = k').
  { intros [x y] [x' y'] a b I I' Hk A E. cbn [fst snd] in *.
    assert (E' : (x, y) = on_line x' y' d (b - a)) by (unfold on_line in *; injection E as E1 E2; f_equal; lia).
    destruct (Z.eq_dec a b) as [->|Ne].
    - split; auto. rewrite E'. replace (b - b) with 0 by lia. unfold on_line. f_equal; ring.
    - exfalso. apply dir_starts_iff in I as [_ No]. apply No.
      replace (x - fst (heading d), y - snd (heading d)) with (on_line x' y' d (b - a - 1)); [apply A; lia|].
      unfold on_line in *. injection E' as E1 E2. f_equal; lia. }
  intros I I' Hk Hk' A A' E. destruct (Z.le_ge_cases k k') as [L|L].
  - apply X; auto.
  - destruct (X st' st k' k) as [-> ->]; auto.
Qed.
End G.
