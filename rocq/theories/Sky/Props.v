From Coq Require Import ZArith List Lia Bool QArith Qcanon.
From Verif Require Import Lib.Base Lib.Img Lib.QSum Sky.Model Sky.Spec Sky.Algebra Sky.Proofs Sky.History.
Import ListNotations.
Local Open Scope Z_scope.

(* A matrix reads back what was last assigned to an entry or to its mirror image, and the
   skyline of a row is the leftmost entry used, so everything left of it is zero. *)
Theorem skyline_reads_back : forall n h, 0 <= n -> Forall (event_in n) h ->
  exists a, apply_all (new_mat n) h = Ok a /\
    (forall i j, 0 <= i < n -> 0 <= j < n -> read_const Plain a i j = Ok (entry_after h i j)) /\
    (forall i, 0 <= i < n -> exists s, vget (sky a) i = Ok s /\ 0 <= s <= i /\
      (forall j, 0 <= j < s -> entry_after h i j = 0%Qc) /\
      (s < i -> exists e, In e h /\ touches e i s) /\
      (forall e j, In e h -> touches e i j -> 0 <= j <= i -> s <= j)).
Proof.
  intros n h N F. destruct (history_holds n h N F) as (a & E & H). exists a. split; auto. split.
  - intros i j Hi Hj. unfold read_const. cbn [vconst bind]. unfold deref. rewrite get_in.
    + f_equal. apply (cell_reorg n h a Plain H (idx_plain n) i j Hi Hj).
    + destruct H as (C & R & _). unfold inside. destruct (at_const_cases i j) as [(-> & _)|(-> & _)]; cbn [fst snd]; lia.
  - intros i Hi. pose proof H as (_ & _ & V & _ & Hs). exists (vat (sky a) i). split; [apply (vget_ok n); auto|].
    destruct (Hs i Hi) as (B & X & Lw). split; [auto|split; [|split; auto]].
    + intros j Hj. apply (holds_zero n h a); auto; lia.
    + intros L. apply Exists_exists. auto.
Qed.
Print Assumptions skyline_reads_back.

(* Looking at an entry of a matrix that is not const counts as using it. *)
Theorem skyline_look_refuted : exists h r c, Forall (event_in 2) (h ++ [Look r c]) /\
  exists a b, apply_all (new_mat 2) h = Ok a /\ apply_all (new_mat 2) (h ++ [Look r c]) = Ok b /\ vget (sky a) r <> vget (sky b) r.
Proof.
  exists [], 1, 0. split; [repeat constructor; cbn; lia|]. eexists. eexists. split; [reflexivity|]. split; [reflexivity|].
  cbn. discriminate.
Qed.
Print Assumptions skyline_look_refuted.

(* The decomposition stores the factors of the matrix. *)
Theorem ldl_factors : forall n h a, 0 <= n -> Forall (event_in n) h -> apply_all (new_mat n) h = Ok a ->
  leading_regular n (entry_after h) ->
  exists a', sparse_ldl_decomposition Plain None a = Ok a' /\ (forall i, 0 <= i < n -> vget (sky a') i = vget (sky a) i) /\
    exists L D, (forall i j, 0 <= j < i -> i < n -> read_const Plain a' i j = Ok (L i j)) /\
      (forall i, 0 <= i < n -> read_const Plain a' i i = Ok (D i) /\ D i <> 0%Qc) /\
      forall i j, 0 <= i < n -> 0 <= j < n -> entry_after h i j = ldlt n L D i j.
Proof.
  intros n h a N F E Re. destruct (history_holds n h N F) as (a0 & E0 & H). rewrite E in E0. inversion E0; subst a0.
  destruct (plain_ldl (fun _ => True) n h a N H) as (a' & Ed & Ia & _).
  { intros j c J Fc. split; auto. apply (pivot_nonzero n); auto. apply entry_symmetric. }
  exists a'. split; auto. split.
  - intros i Hi. destruct Ia as ((_ & _ & V & S0) & _). rewrite !(vget_ok n) by (auto; apply H). now rewrite S0.
  - exists (cell Plain a'), (fun k => cell Plain a' k k). split; [|split].
    + intros i j J I. apply (read_plain n (vat (sky a)) (entry_after h)); auto. lia.
    + intros i Hi. split; [apply (read_plain n (vat (sky a)) (entry_after h)); auto; lia|]. apply Ia; auto.
    + apply (inv_ldlt Plain None n (vat (sky a)) (entry_after h)); auto. apply entry_symmetric.
Qed.
Print Assumptions ldl_factors.

(* Positive definite matrices have positive pivots. *)
Theorem ldl_positive_pivots : forall n h a, 0 <= n -> Forall (event_in n) h -> apply_all (new_mat n) h = Ok a ->
  positive_definite n (entry_after h) ->
  exists a', sparse_ldl_decomposition Plain None a = Ok a' /\
    forall i, 0 <= i < n -> exists d, read_const Plain a' i i = Ok d /\ (0 < d)%Qc.
Proof.
  intros n h a N F E Pd. destruct (history_holds n h N F) as (a0 & E0 & H). rewrite E in E0. inversion E0; subst a0.
  destruct (plain_ldl (fun d => (0 < d)%Qc) n h a N H) as (a' & Ed & Ia & Pa).
  { intros j c J Fc. assert (P : (0 < entry_after h j j - qsum 0 j (fun m => c j m * c j m * c m m))%Qc).
    { apply (pivot_positive n); auto. apply entry_symmetric. }
    split; auto. intros Z0. rewrite Z0 in P. now apply Qclt_not_eq in P. }
  exists a'. split; auto. intros i Hi. exists (cell Plain a' i i). split; auto.
  apply (read_plain n (vat (sky a)) (entry_after h)); auto; lia.
Qed.
Print Assumptions ldl_positive_pivots.

(* Solving gives the solution, the only one. *)
Theorem sparse_solve_exact : forall n h a b, 0 <= n -> Forall (event_in n) h -> apply_all (new_mat n) h = Ok a ->
  isvec n b -> leading_regular n (entry_after h) ->
  exists a' x, sparse_solve Plain None a b = Ok (a', x) /\ isvec n x /\ solves n (entry_after h) (vat x) (vat b) /\
    forall y, solves n (entry_after h) y (vat b) -> forall i, 0 <= i < n -> y i = vat x i.
Proof.
  intros n h a b N F E Vb Re. destruct (history_holds n h N F) as (a0 & E0 & H). rewrite E in E0. inversion E0; subst a0.
  destruct (plain_ldl (fun _ => True) n h a N H) as (a' & Ed & Ia & _).
  { intros j c J Fc. split; auto. apply (pivot_nonzero n); auto. apply entry_symmetric. }
  destruct (solve_live n h a a' b N H Ia Vb) as (x & Ex & Vx & Sx). exists a', x.
  unfold sparse_solve. rewrite Ed. cbn [bind]. rewrite Ex. cbn [bind]. split; auto. split; auto. split; auto.
  intros y Sy i Hi. apply (solution_unique n (entry_after h) y (vat x) (vat b)); auto.
Qed.
Print Assumptions sparse_solve_exact.

Theorem multi_sparse_solve_exact : forall n h a b, 0 <= n -> Forall (event_in n) h -> apply_all (new_mat n) h = Ok a ->
  irows b = n -> 0 <= icols b -> leading_regular n (entry_after h) ->
  exists a' x, multi_sparse_solve None a b = Ok (a', x) /\ icols x = icols b /\ irows x = n /\
    forall c, 0 <= c < icols b -> solves n (entry_after h) (fun j => pix x c j) (fun j => pix b c j).
Proof.
  intros n h a b N F E Rb Cb Re. destruct (history_holds n h N F) as (a0 & E0 & H). rewrite E in E0. inversion E0; subst a0.
  apply multi_ok; auto.
Qed.
Print Assumptions multi_sparse_solve_exact.

(* Reordering rows and columns by any permutation and back does not change the solution of a
   positive definite system. *)
Theorem reordered_solve_exact : forall n h a b lk, 0 <= n -> Forall (event_in n) h -> apply_all (new_mat n) h = Ok a ->
  isvec n b -> isvec n lk -> permutes n (vat lk) -> positive_definite n (entry_after h) ->
  exists x, solve_reordered a b lk = Ok x /\ isvec n x /\ solves n (entry_after h) (vat x) (vat b).
Proof.
  intros n h a b lk N F E Vb Vl P Pd. destruct (history_holds n h N F) as (a0 & E0 & H). rewrite E in E0. inversion E0; subst a0.
  apply reordered_ok; auto. apply posdef_regular. now apply reordered_posdef.
Qed.
Print Assumptions reordered_solve_exact.

(* The skyline found for a reordered matrix is the first entry that is not zero. *)
Theorem found_skyline : forall n h a lk, 0 <= n -> Forall (event_in n) h -> apply_all (new_mat n) h = Ok a ->
  isvec n lk -> permutes n (vat lk) ->
  exists s, solve_for_skyline (Reorganized lk) a = Ok s /\ isvec n s /\ forall i, 0 <= i < n -> 0 <= vat s i <= i /\
    (forall q, 0 <= q < vat s i -> entry_after h (vat lk i) (vat lk q) = 0%Qc) /\
    (vat s i < i -> entry_after h (vat lk i) (vat lk (vat s i)) <> 0%Qc).
Proof.
  intros n h a lk N F E Vl P. destruct (history_holds n h N F) as (a0 & E0 & H). rewrite E in E0. inversion E0; subst a0.
  apply (skyline_solved (Reorganized lk) n h a Vl N H P).
Qed.
Print Assumptions found_skyline.

(* "Perform L*D*L^T decomposition on a sparse, skyline symmetric semi-definite matrix"
   (line 225): the matrix of ones is semi-definite, and its decomposition divides by zero. *)
Definition ones3 := [Assign 0 0 1%Qc; Assign 1 0 1%Qc; Assign 1 1 1%Qc; Assign 2 0 1%Qc; Assign 2 1 1%Qc; Assign 2 2 1%Qc].
Lemma ones3_times x i : 0 <= i < 3 -> times 3 (entry_after ones3) x i = (x 0%Z + (x 1%Z + x 2%Z))%Qc.
Proof.
  intros Hi. assert (H : i = 0 \/ i = 1 \/ i = 2) by lia. unfold times, qsum.
  change (zrange 0 3) with [0; 1; 2]. cbn [fold_right].
  destruct H as [->|[->| ->]];
  repeat match goal with |- context [entry_after ones3 ?a ?b] => change (entry_after ones3 a b) with 1%Qc end; ring.
Qed.
Theorem ldl_semi_definite_refuted : exists n h a, Forall (event_in n) h /\ apply_all (new_mat n) h = Ok a /\
  (forall x, (0 <= qsum 0 n (fun i => x i * times n (entry_after h) x i))%Qc) /\
  sparse_ldl_decomposition Plain None a = UB DivByZero.
Proof.
  exists 3, ones3. destruct (history_holds 3 ones3) as (a & E & _); [lia|repeat constructor; cbn; lia|].
  exists a. split; [repeat constructor; cbn; lia|]. split; auto. split.
  - intros x. rewrite (qsum_ext 0 3 _ (fun i => x i * (x 0%Z + (x 1%Z + x 2%Z)))%Qc) by (intros i Hi; rewrite ones3_times by auto; reflexivity).
    rewrite qsum_mul_r. replace (qsum 0 3 x) with (x 0%Z + (x 1%Z + x 2%Z))%Qc by (unfold qsum; change (zrange 0 3) with [0; 1; 2]; cbn [fold_right]; ring).
    set (t := (x 0%Z + (x 1%Z + x 2%Z))%Qc). destruct (Qclt_le_dec t 0) as [L|L].
    + assert (N0 : (0 <= - t)%Qc) by (apply Qclt_le_weak, Qcopp_le_compat in L; exact L).
      pose proof (Qcmult_le_compat_r _ _ _ N0 N0) as Q0. replace (0 * - t)%Qc with 0%Qc in Q0 by ring.
      replace (- t * - t)%Qc with (t * t)%Qc in Q0 by ring. exact Q0.
    + apply Qcle_trans with (0 * t)%Qc; [rewrite Qcmult_0_l; apply Qcle_refl|]. apply Qcmult_le_compat_r; auto.
  - assert (R : (a <- apply_all (new_mat 3) ones3 ;; sparse_ldl_decomposition Plain None a) = UB DivByZero) by (vm_compute; reflexivity).
    rewrite E in R. exact R.
Qed.
Print Assumptions ldl_semi_definite_refuted.

(* "Solve A x = b": not every regular symmetric matrix will do. *)
Theorem sparse_solve_regular_refuted : exists n h a b, Forall (event_in n) h /\ apply_all (new_mat n) h = Ok a /\ isvec n b /\
  (exists x, solves n (entry_after h) x (vat b) /\ forall y, solves n (entry_after h) y (vat b) -> forall i, 0 <= i < n -> y i = x i) /\
  sparse_solve Plain None a b = UB DivByZero.
Proof.
  exists 2, [Assign 1 0 1%Qc]. destruct (history_holds 2 [Assign 1 0 1%Qc]) as (a & E & _); [lia|repeat constructor; cbn; lia|].
  exists a, (vnew 2 1%Qc). split; [repeat constructor; cbn; lia|]. split; auto. split; [apply vnew_vec|]. split.
  - exists (fun _ => 1%Qc). split.
    + intros i Hi. assert (H : i = 0 \/ i = 1) by lia. destruct H as [->| ->]; reflexivity.
    + intros y Sy i Hi. assert (H : i = 0 \/ i = 1) by lia.
      pose proof (Sy 0 ltac:(lia)) as S0. pose proof (Sy 1 ltac:(lia)) as S1.
      unfold times, qsum in S0, S1. change (zrange 0 2) with [0; 1] in S0, S1. cbn [fold_right] in S0, S1.
      change (entry_after [Assign 1 0 1%Qc] 0 0) with 0%Qc in S0. change (entry_after [Assign 1 0 1%Qc] 0 1) with 1%Qc in S0.
      change (entry_after [Assign 1 0 1%Qc] 1 0) with 1%Qc in S1. change (entry_after [Assign 1 0 1%Qc] 1 1) with 0%Qc in S1.
      change (vat (vnew 2 1%Qc) 0) with 1%Qc in S0. change (vat (vnew 2 1%Qc) 1) with 1%Qc in S1.
      destruct H as [->| ->].
      * rewrite <- S1. ring.
      * rewrite <- S0. ring.
  - assert (R : (a <- apply_all (new_mat 2) [Assign 1 0 1%Qc] ;; sparse_solve Plain None a (vnew 2 1%Qc)) = UB DivByZero) by (vm_compute; reflexivity).
    rewrite E in R. exact R.
Qed.
Print Assumptions sparse_solve_regular_refuted.

(* A positive definite matrix, a permutation and the solutions computed. *)
Definition q (z : Z) : Qc := Q2Qc (inject_Z z).
Definition spd3 := [Assign 0 0 (q 4); Assign 0 2 (q 2); Assign 1 1 (q 1); Assign 2 2 (q 5)].
Example skyline_ex : Forall (event_in 3) spd3 /\ permutes 3 (vat (Img 3 1 (fun i _ => if i =? 0 then 2 else i - 1))) /\
  (a <- apply_all (new_mat 3) spd3 ;; Ok (map (vat (sky a)) [0; 1; 2])) = Ok [0; 1; 0] /\
  (a <- apply_all (new_mat 3) spd3 ;; '(_, x) <- sparse_solve Plain None a (Img 3 1 (fun i _ => q (i + 2))) ;;
     Ok (map (fun i => this (vat x i)) [0; 1; 2])) = Ok [1 # 8; 3 # 1; 3 # 4]%Q /\
  (a <- apply_all (new_mat 3) spd3 ;;
   x <- solve_reordered a (Img 3 1 (fun i _ => q (i + 2))) (Img 3 1 (fun i _ => if i =? 0 then 2 else i - 1)) ;;
     Ok (map (fun i => this (vat x i)) [0; 1; 2])) = Ok [1 # 8; 3 # 1; 3 # 4]%Q.
Proof.
  split; [repeat constructor; cbn; lia|]. split.
  { split; unfold vat; cbn [pix]; intros; destruct (Z.eqb_spec i 0); try destruct (Z.eqb_spec j 0); lia. }
  split; [|split]; vm_compute; reflexivity.
Qed.

Lemma square_nonneg (t : Qc) : (0 <= t * t)%Qc.
Proof.
  destruct (Qclt_le_dec t 0) as [L|L].
  - assert (N0 : (0 <= - t)%Qc) by (apply Qclt_le_weak, Qcopp_le_compat in L; exact L).
    pose proof (Qcmult_le_compat_r _ _ _ N0 N0) as Q0. replace (0 * - t)%Qc with 0%Qc in Q0 by ring.
    replace (- t * - t)%Qc with (t * t)%Qc in Q0 by ring. exact Q0.
  - pose proof (Qcmult_le_compat_r _ _ _ L L) as Q0. replace (0 * t)%Qc with 0%Qc in Q0 by ring. exact Q0.
Qed.
Lemma square_pos (t : Qc) : t <> 0%Qc -> (0 < t * t)%Qc.
Proof.
  intros N. destruct (Qcle_lt_or_eq _ _ (square_nonneg t)) as [|E]; auto.
  symmetry in E. apply Qcmult_integral in E. tauto.
Qed.
Lemma plus_pos_l (a b : Qc) : (0 < a)%Qc -> (0 <= b)%Qc -> (0 < a + b)%Qc.
Proof.
  intros A B. apply Qclt_le_trans with a; auto.
  pose proof (Qcplus_le_compat a a 0 b (Qcle_refl a) B) as H. now rewrite Qcplus_0_r in H.
Qed.
Lemma plus_pos_r (a b : Qc) : (0 <= a)%Qc -> (0 < b)%Qc -> (0 < a + b)%Qc.
Proof. intros. rewrite Qcplus_comm. now apply plus_pos_l. Qed.
(* ... and it is positive definite: 4 x^2 + 4 x z + y^2 + 5 z^2. *)
Example skyline_posdef_ex : positive_definite 3 (entry_after spd3).
Proof.
  intros x (i & Hi & Nz).
  assert (E : qsum 0 3 (fun i => x i * times 3 (entry_after spd3) x i)%Qc =
    ((q 2 * x 0%Z + x 2%Z) * (q 2 * x 0%Z + x 2%Z) + (x 1%Z * x 1%Z + (q 2 * x 2%Z) * (q 2 * x 2%Z)))%Qc).
  { unfold times, qsum. change (zrange 0 3) with [0; 1; 2]. cbn [fold_right].
    repeat match goal with |- context [entry_after spd3 ?a ?b] => let v := eval vm_compute in (this (entry_after spd3 a b)) in
      replace (entry_after spd3 a b) with (Q2Qc v) by (apply Qc_is_canon; reflexivity) end.
    replace (Q2Qc 4) with (q 2 * q 2)%Qc by (apply Qc_is_canon; reflexivity).
    replace (Q2Qc 2) with (q 2)%Qc by (apply Qc_is_canon; reflexivity).
    replace (Q2Qc 5) with (1 + q 2 * q 2)%Qc by (apply Qc_is_canon; reflexivity).
    ring. }
  rewrite E. clear E. pose proof (square_nonneg (q 2 * x 0%Z + x 2%Z)). pose proof (square_nonneg (x 1%Z)). pose proof (square_nonneg (q 2 * x 2%Z)).
  assert (Q2 : q 2 <> 0%Qc) by discriminate.
  destruct (Qc_eq_dec (x 1%Z) 0) as [Z1|N1]; [|apply plus_pos_r; auto; apply plus_pos_l; auto; now apply square_pos].
  destruct (Qc_eq_dec (x 2%Z) 0) as [Z2|N2].
  - assert (i = 0) by (assert (i = 0 \/ i = 1 \/ i = 2) as [|[|]] by lia; subst; congruence). subst i.
    apply plus_pos_l.
    + apply square_pos. rewrite Z2, Qcplus_0_r. intros Z. apply Qcmult_integral in Z. tauto.
    + rewrite Z1, Z2. discriminate.
  - apply plus_pos_r; auto. apply plus_pos_r; auto. apply square_pos. intros Z. apply Qcmult_integral in Z. tauto.
Qed.
