(** Growing a box on the grid of its own size. *)
From Verif Require Import Lib.Base Lib.Lists STree.Model STree.Spec STree.Geom.
From Coq Require Import List Arith Bool ZArith QArith Qround Lqa Lia.
Import ListNotations.
Open Scope Q_scope.

Notation pow2 k := (inject_Z (2 ^ Z.of_nat k)).

(** [j] is [2^k] cells of the grid of [i], one of which is [i]. *)
Definition aligned1 (k : nat) (i j : iv) : Prop :=
  exists a : Z, fst j == fst i - inject_Z a * size i /\
                snd j == fst j + pow2 k * size i /\ (0 <= a < 2 ^ Z.of_nat k)%Z.
Notation aligned k := (Forall2 (aligned1 k)).

Lemma scale_le (x y : Z) D : 0 < D -> (inject_Z x * D <= inject_Z y * D <-> (x <= y)%Z).
Proof. intros H. rewrite Qmult_le_r by exact H. rewrite <- Zle_Qle. reflexivity. Qed.

Lemma aligned0 b B : aligned 0 b B -> Forall2 same B b.
Proof.
  induction 1 as [|i j b B (a & E1 & E2 & L) _ IH]; constructor; auto.
  assert (a = 0)%Z by (cbn in L; lia). subst a. change (pow2 0) with 1 in E2. unfold size in *.
  change (inject_Z 0) with 0 in E1.
  assert (fst j == fst i) by lra. split; [exact H|]. rewrite E2, H. lra.
Qed.

Lemma pow2_S k : pow2 (S k) == pow2 k + pow2 k.
Proof.
  rewrite <- inject_Z_plus. rewrite Nat2Z.inj_succ, Z.pow_succ_r by lia.
  replace (2 * 2 ^ Z.of_nat k)%Z with (2 ^ Z.of_nat k + 2 ^ Z.of_nat k)%Z by lia. reflexivity.
Qed.

Lemma aligned_half k i j h : 0 < size i -> aligned1 (S k) i j -> h = lower j \/ h = upper j ->
  within h i -> aligned1 k i h.
Proof.
  intros D (a & E1 & E2 & L) H (W1 & W2). rewrite Nat2Z.inj_succ, Z.pow_succ_r in L by lia.
  rewrite pow2_S in E2.
  assert (Sj : size j == (pow2 k + pow2 k) * size i) by (unfold size at 1; rewrite E2; ring).
  assert (Mid : middle j == fst j + pow2 k * size i) by (unfold middle; rewrite E2; ring).
  assert (SI : snd i == fst i + size i) by (unfold size; ring).
  destruct H as [->| ->].
  - exists a. unfold lower in *. cbn [fst snd] in *.
    assert (X : fst j == middle j - size j * (1 # 2)) by (rewrite Mid, Sj; ring).
    assert (Y : (a + 1 <= 2 ^ Z.of_nat k)%Z).
    { apply (scale_le _ _ (size i) D). rewrite inject_Z_plus. change (inject_Z 1) with 1. lra. }
    split; [rewrite <- X; exact E1|]. split; [rewrite <- X; exact Mid|lia].
  - exists (a - 2 ^ Z.of_nat k)%Z. unfold upper in *. cbn [fst snd] in *.
    assert (Y : (2 ^ Z.of_nat k <= a)%Z).
    { apply (scale_le _ _ (size i) D). lra. }
    split; [|split].
    + rewrite Mid, E1. unfold Zminus. rewrite inject_Z_plus, inject_Z_opp. ring.
    + rewrite Sj. ring.
    + lia.
Qed.

Lemma aligned_quad k b B q : Forall (fun i => 0 < size i) b -> aligned (S k) b B ->
  In q (quadrants B) -> Forall2 within q b -> aligned k b q.
Proof.
  intros P A J. apply quadrants_iff in J. revert P q J. induction A as [|i j b B A _ IH]; intros P q J W.
  - inversion J; subst. constructor.
  - inversion J as [|h ? q' ? H J']; subst. inversion W as [|? ? ? ? W1 W']; subst. inversion P; subst.
    constructor; [eapply aligned_half; eauto|auto].
Qed.

Lemma aligned_solid k b B : b <> [] -> Forall (fun i => 0 < size i) b -> aligned k b B -> empty B = false.
Proof.
  intros N P A. apply empty_false_iff. split; [intros ->; inversion A; congruence|].
  clear N. induction A as [|i j b B (a & E1 & E2 & L) _ IH]; [constructor|]. inversion P; subst.
  constructor; [|auto]. rewrite E2.
  assert (0 < pow2 k) by (change 0 with (inject_Z 0); rewrite <- Zlt_Qlt; lia). nra.
Qed.

(** One half contains the cell, unless there is only one cell. *)
Lemma aligned_some k i j : 0 < size i -> aligned1 (S k) i j ->
  within (lower j) i \/ within (upper j) i.
Proof.
  intros D (a & E1 & E2 & L). rewrite Nat2Z.inj_succ, Z.pow_succ_r in L by lia.
  rewrite pow2_S in E2.
  assert (Sj : size j == (pow2 k + pow2 k) * size i) by (unfold size at 1; rewrite E2; ring).
  assert (Mid : middle j == fst j + pow2 k * size i) by (unfold middle; rewrite E2; ring).
  assert (SI : snd i == fst i + size i) by (unfold size; ring).
  assert (Pa : 0 <= inject_Z a * size i).
  { assert (0 <= inject_Z a) by (change 0 with (inject_Z 0); rewrite <- Zle_Qle; lia).
    apply Qmult_le_0_compat; lra. }
  destruct (Z_lt_le_dec a (2 ^ Z.of_nat k)) as [Y|Y].
  - left. assert (Y' : (a + 1 <= 2 ^ Z.of_nat k)%Z) by lia.
    apply (scale_le _ _ (size i) D) in Y'. rewrite inject_Z_plus in Y'. change (inject_Z 1) with 1 in Y'.
    unfold within, lower. cbn [fst snd]. rewrite Mid, Sj, SI, E1. split; lra.
  - right. apply (scale_le _ _ (size i) D) in Y.
    assert (Y' : (a + 1 <= 2 * 2 ^ Z.of_nat k)%Z) by lia.
    apply (scale_le _ _ (size i) D) in Y'. rewrite inject_Z_plus, inject_Z_mult in Y'.
    change (inject_Z 1) with 1 in Y'. change (inject_Z 2) with 2 in Y'.
    unfold within, upper. cbn [fst snd]. rewrite Mid, Sj, SI, E1. split; lra.
Qed.

Lemma aligned_contained k b B : b <> [] -> Forall (fun i => 0 < size i) b -> aligned (S k) b B ->
  exists q, In q (split_bbox B) /\ contains q b = true.
Proof.
  intros N P A. unfold split_bbox. rewrite (aligned_solid _ b B N P A).
  assert (X : exists q, Forall2 (fun j i => j = lower i \/ j = upper i) q B /\ Forall2 within q b).
  { clear N. induction A as [|i j b B A _ IH]; [exists []; split; constructor|].
    inversion P; subst. destruct (IH H2) as (q & Q1 & Q2).
    destruct (aligned_some k i j H1 A) as [W|W]; [exists (lower j :: q)|exists (upper j :: q)]; split; constructor; auto. }
  destruct X as (q & Q1 & Q2). exists q. split; [apply quadrants_iff; exact Q1|].
  apply contains_iff. split; [|exact Q2]. intros ->. inversion Q2; congruence.
Qed.

(** ** grow_bbox_on_grid *)

Lemma Qmin'_le a b : Qmin' a b <= a /\ Qmin' a b <= b.
Proof.
  unfold Qmin'. destruct (Qlt_b b a) eqn:E.
  - apply Qlt_b_iff in E. lra.
  - assert (~ b < a) by (rewrite <- Qlt_b_iff; congruence). lra.
Qed.

Lemma Qmax'_ge a b : a <= Qmax' a b /\ b <= Qmax' a b.
Proof.
  unfold Qmax'. destruct (Qlt_b a b) eqn:E.
  - apply Qlt_b_iff in E. lra.
  - assert (~ a < b) by (rewrite <- Qlt_b_iff; congruence). lra.
Qed.

Lemma grow_within b c : length b = length c -> b <> [] ->
  Forall2 within (grow b c) b /\ (empty c = false -> Forall2 within (grow b c) c) /\ length (grow b c) = length b.
Proof.
  intros L N. unfold grow. destruct (empty c) eqn:E.
  - split; [|split; [discriminate|reflexivity]]. clear. induction b; constructor; auto. split; lra.
  - destruct b as [|i b]; [congruence|]. clear N E. revert c L.
    induction (i :: b) as [|j l IH]; intros [|k c] L; try discriminate; cbn [map2].
    + repeat split; constructor.
    + injection L as L. destruct (IH c L) as (I1 & I2 & I3).
      pose proof (Qmin'_le (Qmin' (fst j) (fst k)) (snd k)). pose proof (Qmin'_le (fst j) (fst k)).
      pose proof (Qmax'_ge (Qmax' (snd j) (fst k)) (snd k)). pose proof (Qmax'_ge (snd j) (fst k)).
      split; [|split].
      * constructor; [|exact I1]. unfold within. cbn [fst snd]. lra.
      * intros _. constructor; [|apply I2; reflexivity]. unfold within. cbn [fst snd]. lra.
      * cbn [length]. rewrite I3. reflexivity.
Qed.

Definition shifted (p : nat) (x : iv * iv) : iv :=
  (fst (snd x) - extra_needed x, snd (snd x) + (extra p x - extra_needed x)).

Lemma shifted_ok p i s : 0 < size i -> within s i -> extra_needed (i, s) <= extra p (i, s) ->
  aligned1 p i (shifted p (i, s)) /\ within (shifted p (i, s)) s.
Proof.
  intros D (W1 & W2) X. unfold shifted. cbn [fst snd].
  set (d := fst i - fst s) in *. set (a := Qceiling (d / size i)).
  assert (EN : extra_needed (i, s) = inject_Z a * size i - d) by reflexivity.
  assert (EX : extra p (i, s) = pow2 p * size i - size s) by reflexivity.
  assert (C1 : d / size i <= inject_Z a) by apply Qle_ceiling.
  assert (C2 : d <= inject_Z a * size i).
  { apply (Qmult_le_r _ _ (size i) D) in C1.
    assert (E : d / size i * size i == d) by (rewrite Qmult_comm; apply Qmult_div_r; lra).
    rewrite E in C1. exact C1. }
  assert (Dd : 0 <= d) by (unfold d; lra).
  assert (Pa : (0 <= a)%Z).
  { apply (scale_le _ _ (size i) D). change (inject_Z 0) with 0. lra. }
  rewrite EN, EX in X |- *.
  assert (SI : snd i == fst i + size i) by (unfold size; ring).
  assert (SS : snd s == fst s + size s) by (unfold size; ring).
  split.
  - exists a. cbn [fst snd]. split; [unfold d; ring|]. split; [rewrite SS; ring|].
    split; [exact Pa|]. assert (Y : (a + 1 <= 2 ^ Z.of_nat p)%Z); [|lia].
    apply (scale_le _ _ (size i) D). rewrite inject_Z_plus. change (inject_Z 1) with 1.
    unfold d in *. lra.
  - unfold within. cbn [fst snd]. unfold d in *. lra.
Qed.

Lemma grid_loop_ok b super : Forall (fun i => 0 < size i) b -> Forall2 within super b ->
  forall k p r, grid_loop k p b super = Ok r ->
  exists p', aligned p' b r /\ Forall2 within r super.
Proof.
  intros P W. induction k as [|k IH]; intros p r H; [discriminate|]. cbn [grid_loop] in H.
  destruct (forallb _ _) eqn:E; [|exact (IH _ _ H)].
  injection H as <-. exists p. clear IH. fold (shifted p) in *.
  revert P E. induction W as [|s i super b W _ IH]; intros P E; cbn [combine map]; [split; constructor|].
  cbn [combine forallb] in E. apply andb_true_iff in E as (E1 & E2). apply Qle_bool_iff in E1.
  inversion P; subst. destruct (IH H2 E2) as (I1 & I2).
  destruct (shifted_ok p i s H1 W E1) as (A1 & A2). split; constructor; auto.
Qed.

Lemma grid_ok b nb r : proper b -> length b = length nb -> b <> [] -> grow_bbox_on_grid b nb = Ok r ->
  Forall (fun i => 0 < size i) b /\
  (exists p, aligned p b r) /\ contains r b = true /\ (empty nb = false -> contains r nb = true).
Proof.
  intros Pr L N H. unfold grow_bbox_on_grid in H. destruct b as [|i b]; [congruence|].
  set (B := i :: b) in *. destruct (existsb _ B) eqn:E; [discriminate|].
  assert (P : Forall (fun i => 0 < size i) B).
  { unfold proper in Pr. rewrite Forall_forall in Pr |- *. intros x J. specialize (Pr x J).
    destruct (Qeq_bool (size x) 0) eqn:Ez.
    - exfalso. assert (X : existsb (fun i => Qeq_bool (size i) 0) B = true) by (apply existsb_exists; eauto). congruence.
    - apply Qeq_bool_neq in Ez. unfold size in *. destruct (Qlt_le_dec 0 (snd x - fst x)) as [Hl|Hl]; [exact Hl|].
      exfalso. apply Ez. lra. }
  split; [exact P|].
  destruct (grow_within B nb L N) as (W1 & W2 & _).
  destruct (grid_loop_ok B (grow B nb) P W1 _ _ _ H) as (p & A & W).
  split; [eauto|].
  assert (Nr : r <> []) by (intros ->; apply N, (Forall2_nil_iff _ _ _ A); reflexivity).
  split; [|intros En]; apply contains_iff; (split; [exact Nr|]).
  - eapply Forall2_trans'; [|exact W|exact W1]. unfold within. intros; lra.
  - eapply Forall2_trans'; [|exact W|exact (W2 En)]. unfold within. intros; lra.
Qed.

(** When the result is at most 2^31 cells wide, it is found. *)
Lemma grid_total b nb : Forall (fun i => 0 < size i) b -> b <> [] -> length b = length nb ->
  (exists r, grow_bbox_on_grid b nb = Ok r) \/ grow_bbox_on_grid b nb = UB Overflow.
Proof.
  intros P N L. unfold grow_bbox_on_grid. destruct b as [|i b]; [congruence|].
  destruct (existsb _ (i :: b)) eqn:E.
  - exfalso. apply existsb_exists in E as (x & J & Ez). apply Qeq_bool_eq in Ez.
    rewrite Forall_forall in P. specialize (P x J). lra.
  - assert (X : forall n p super, (exists r, grid_loop n p (i :: b) super = Ok r) \/
                             grid_loop n p (i :: b) super = UB Overflow); [|apply X].
    induction n as [|n IH]; intros p super; [right; reflexivity|]. cbn [grid_loop].
    destruct (forallb _ _); [left; eauto|apply IH].
Qed.

Lemma grid_near b nb : Forall (fun i => 0 < size i) b -> b <> [] -> length b = length nb ->
  Forall2 (fun i s => size s + size i <= inject_Z (2 ^ 31) * size i) b (grow b nb) ->
  exists r, grow_bbox_on_grid b nb = Ok r.
Proof.
  intros P N L F. destruct (grid_total b nb P N L) as [H|H]; [exact H|]. exfalso.
  unfold grow_bbox_on_grid in H. destruct b as [|i b]; [congruence|]. set (B := i :: b) in *.
  destruct (existsb _ B); [discriminate|].
  assert (X : forallb (fun x => Qle_bool (extra_needed x) (extra 31 x)) (combine B (grow B nb)) = true).
  { destruct (grow_within B nb L N) as (W & _). clear H N L. clearbody B.
    revert P W. induction F as [|j s B' S' F _ IH]; intros P W; [reflexivity|].
    cbn [combine forallb]. inversion P; subst. inversion W as [|? ? ? ? (W1 & W2) W']; subst.
    apply andb_true_iff. split; [|auto]. apply Qle_bool_iff. unfold extra_needed, extra.
    pose proof (Qceiling_lt ((fst j - fst s) / size j)) as C.
    apply (Qmult_lt_r _ _ (size j) H1) in C.
    unfold Z.sub in C. rewrite inject_Z_plus in C. change (inject_Z (- (1))) with (- (1)) in C.
    assert (E : (fst j - fst s) / size j * size j == fst j - fst s).
    { rewrite Qmult_comm. apply Qmult_div_r. lra. }
    change (pow2 31) with (inject_Z (2 ^ 31)). rewrite E in C. nra. }
  assert (Y : forall k p, (p <= 31 < p + k)%nat -> grid_loop k p B (grow B nb) <> UB Overflow).
  { induction k as [|k IH]; intros p Hp; [lia|]. cbn [grid_loop].
    destruct (forallb (fun x => Qle_bool (extra_needed x) (extra p x)) _) eqn:E; [discriminate|]. apply IH.
    destruct (Nat.eq_dec p 31) as [->|]; [congruence|lia]. }
  apply (Y 31%nat 1%nat) in H; [exact H|lia].
Qed.
