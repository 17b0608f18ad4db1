From Coq Require Import ZArith List Lia Bool QArith Qcanon Field.
From Verif Require Import Lib.Base Lib.Img Lib.QSum Sky.Spec MInv.Model MInv.Spec MInv.Proofs MInv.Solve MInv.Alt MInv.Det.
Import ListNotations.
Local Open Scope Z_scope.

(** ** Inverse *)

(* The inverse of a regular matrix is found, and it is the inverse from both sides. *)
Theorem inverse_regular : forall n m, 0 <= n -> is_matrix n n m -> regular n (entry m) ->
  exists x, inverse m = Ok x /\ is_matrix n n x /\ product_is n (entry m) (entry x) ident /\ product_is n (entry x) (entry m) ident.
Proof.
  intros n m N M R. destruct (inverse_ok n m N M) as [(x & E & Mx & _ & A & B)|(_ & x & s & S & X & SX)].
  - exists x. auto.
  - exfalso. specialize (R x SX s S). rewrite X in R. discriminate R.
Qed.
Print Assumptions inverse_regular.

(* A matrix that maps a vector other than zero to zero is rejected. *)
Theorem inverse_singular : forall n m, 0 <= n -> is_matrix n n m ->
  (inverse m = Throw OtherErr <-> exists x i, 0 <= i < n /\ x i <> 0%Qc /\ solves n (entry m) x (fun _ => 0%Qc)).
Proof.
  intros n m N M. split.
  - intros E. destruct (inverse_ok n m N M) as [(x & E' & _)|(_ & x & s & S & X & SX)]; [congruence|].
    exists x, s. split; auto. split; auto. rewrite X. discriminate.
  - intros (x & i & I & X & SX). destruct (inverse_ok n m N M) as [(y & _ & _ & R & _)|(E & _)]; auto.
    exfalso. apply X. now apply R.
Qed.
Print Assumptions inverse_singular.

Lemma two (P : Z -> Prop) : P 0 -> P 1 -> forall i, 0 <= i < 2 -> P i.
Proof. intros A B i I. assert (i = 0 \/ i = 1) as [->| ->] by lia; auto. Qed.
Lemma qsum2 f : qsum 0 2 f = (f 0%Z + f 1%Z)%Qc.
Proof. rewrite (qsum_cons 0 2), (qsum_cons (0 + 1) 2), (qsum_nil (0 + 1 + 1) 2) by lia. change (0 + 1) with 1. ring. Qed.

(* The overload for two by two finds the same inverses and rejects the same matrices. *)
Theorem inverse22_agrees : forall m, is_matrix 2 2 m ->
  (regular 2 (entry m) -> exists x, inverse22 m = Ok x /\ is_matrix 2 2 x /\ product_is 2 (entry m) (entry x) ident /\ product_is 2 (entry x) (entry m) ident) /\
  (~ regular 2 (entry m) -> inverse22 m = Throw OtherErr).
Proof.
  intros m M. unfold inverse22. rewrite !(mget_ok 2 2) by (auto; lia). cbn [bind]. cbn zeta.
  set (a := entry m 0 0). set (b := entry m 0 1). set (c := entry m 1 0). set (d := entry m 1 1).
  destruct (is_zero (a * d - b * c)) eqn:Z0.
  - apply is_zero_iff in Z0. split; auto. intros R. exfalso.
    (* (d,-c) or (-b,a) is in the kernel, or m = 0 *)
    assert (K : forall u v, (a * u + b * v = 0)%Qc -> (c * u + d * v = 0)%Qc -> u = 0%Qc /\ v = 0%Qc).
    { intros u v H1 H2. specialize (R (fun i => if i =? 0 then u else v)). split; [apply (R) with (i := 0)|apply (R) with (i := 1)]; try lia;
        intros i I; unfold times; rewrite qsum2; revert i I; apply two; cbn; auto. }
    destruct (K d (- c)%Qc) as [D C]; [rewrite <- Z0; ring|ring|].
    destruct (K (- b)%Qc a) as [B A]; [ring|rewrite <- Z0; ring|].
    assert (C' : c = 0%Qc) by (rewrite <- (Qcopp_involutive c), C; reflexivity).
    destruct (K 1%Qc 0%Qc) as [E _]; [rewrite A; ring|rewrite C'; ring|]. discriminate E.
  - apply is_zero_not in Z0. split.
    + intros _. eexists. split; [reflexivity|]. split; [split; reflexivity|].
      match goal with |- product_is _ _ (entry ?w) _ /\ _ => set (x := w) end.
      assert (X00 : entry x 0 0 = (d / (a * d - b * c))%Qc) by reflexivity. assert (X01 : entry x 0 1 = (- b / (a * d - b * c))%Qc) by reflexivity.
      assert (X10 : entry x 1 0 = (- c / (a * d - b * c))%Qc) by reflexivity. assert (X11 : entry x 1 1 = (a / (a * d - b * c))%Qc) by reflexivity.
      split; intros i j I J; rewrite qsum2; revert i I; apply two; revert j J; apply two;
        rewrite ?X00, ?X01, ?X10, ?X11; fold a b c d; unfold ident; cbn [Z.eqb Pos.eqb]; field; auto.
    + intros NR. exfalso. apply NR. intros x Sx.
      pose proof (Sx 0 ltac:(lia)) as E0. pose proof (Sx 1 ltac:(lia)) as E1. unfold times in E0, E1. rewrite qsum2 in E0, E1. fold a b in E0. fold c d in E1.
      assert (F0 : ((a * d - b * c) * x 0%Z = 0)%Qc) by (transitivity (d * (a * x 0%Z + b * x 1%Z) - b * (c * x 0%Z + d * x 1%Z))%Qc; [ring|rewrite E0, E1; ring]).
      assert (F1 : ((a * d - b * c) * x 1%Z = 0)%Qc) by (transitivity (a * (c * x 0%Z + d * x 1%Z) - c * (a * x 0%Z + b * x 1%Z))%Qc; [ring|rewrite E0, E1; ring]).
      apply Qcmult_integral in F0 as [F0|F0]; [congruence|]. apply Qcmult_integral in F1 as [F1|F1]; [congruence|]. now apply two.
Qed.
Print Assumptions inverse22_agrees.

Definition some22 : matrix := of_rows 0%Qc [[Q2Qc 0; Q2Qc 2]; [Q2Qc 1; Q2Qc 3]].
Lemma some22_regular : regular 2 (entry some22).
Proof.
  intros x Sx. pose proof (Sx 0 ltac:(lia)) as E0. pose proof (Sx 1 ltac:(lia)) as E1. unfold times in E0, E1. rewrite qsum2 in E0, E1.
  change (entry some22 0 0) with (Q2Qc 0) in E0. change (entry some22 0 1) with (Q2Qc 2) in E0.
  change (entry some22 1 0) with (Q2Qc 1) in E1. change (entry some22 1 1) with (Q2Qc 3) in E1.
  assert (X1 : x 1 = 0%Qc).
  { assert (H : (Q2Qc 2 * x 1%Z = 0)%Qc) by (rewrite <- E0; ring). apply Qcmult_integral in H as [H|H]; [discriminate H|auto]. }
  rewrite X1 in E1. apply two; auto. rewrite <- E1. change (Q2Qc 1) with 1%Qc. ring.
Qed.
(* the first pivot is below the diagonal *)
Example inverse_case : is_matrix 2 2 some22 /\ regular 2 (entry some22) /\
  match inverse some22 with Ok x => to_rows x = [[Q2Qc (-3 # 2); Q2Qc 1]; [Q2Qc (1 # 2); Q2Qc 0]] | _ => False end.
Proof. split; [split; reflexivity|]. split; [apply some22_regular|]. vm_compute. repeat (f_equal; try apply Qc_is_canon; try reflexivity). Qed.
Example singular_case : inverse (of_rows 0%Qc [[Q2Qc 1; Q2Qc 2]; [Q2Qc 2; Q2Qc 4]]) = Throw OtherErr.
Proof. vm_compute. reflexivity. Qed.

(* A matrix with more rows than columns is not rejected: the rows below the square are ignored. *)
Theorem inverse_tall_refuted : exists m, is_matrix 3 2 m /\ exists x, inverse m = Ok x.
Proof. exists (of_rows 0%Qc [[Q2Qc 1; Q2Qc 0]; [Q2Qc 0; Q2Qc 1]; [Q2Qc 5; Q2Qc 5]]). split; [split; reflexivity|]. vm_compute. eauto. Qed.
Print Assumptions inverse_tall_refuted.

(* One with fewer rows than columns is read outside its storage. *)
Theorem inverse_wide_refuted : exists m, is_matrix 1 2 m /\ inverse m = UB OutOfBounds.
Proof. exists (of_rows 0%Qc [[Q2Qc 1; Q2Qc 2]]). split; [split; reflexivity|]. vm_compute. reflexivity. Qed.
Print Assumptions inverse_wide_refuted.

(** ** Determinant *)

Lemma det_is_laplace n m : 0 < n -> is_matrix n n m -> det_is m (laplace (Z.to_nat n) (entry m)).
Proof. intros N M. exists (rounds (Z.to_nat n)). intros g G. now apply det_ok. Qed.
Lemma det_is_unique m p q : det_is m p -> det_is m q -> p = q.
Proof. intros [f F] [g G]. specialize (F (f + g)%nat ltac:(lia)). specialize (G (f + g)%nat ltac:(lia)). congruence. Qed.
Ltac as_laplace n M := match type of M with is_matrix _ _ ?m =>
  match goal with D : det_is m ?q |- _ => let L := fresh in pose proof (det_is_unique m q _ D (det_is_laplace n m ltac:(auto) M)) as L; subst q end end.

(* The loop ends: every square matrix has a determinant; others are rejected. *)
Theorem det_defined : forall r c m, is_matrix r c m -> 0 <= r ->
  (r = c -> exists q, det_is m q) /\ (r <> c -> forall f, det f m = Throw ArgumentErr).
Proof.
  intros r c m [R C] P. split.
  - intros <-. destruct (Z.eq_dec r 0) as [->|].
    + exists 0%Qc, 1%nat. intros g G. unfold det. rewrite R, C. cbn [Z.eqb negb]. destruct g; [lia|]. cbn [det_loop]. rewrite R, C. cbn [Z.eqb negb]. destruct g; reflexivity.
    + exists (laplace (Z.to_nat r) (entry m)). apply det_is_laplace; [lia|split; auto].
  - intros N f. unfold det. rewrite R, C. destruct (Z.eqb_spec r c); [lia|reflexivity].
Qed.
Print Assumptions det_defined.

Theorem det_identity : forall n m, 0 < n -> is_matrix n n m -> (forall i j, 0 <= i < n -> 0 <= j < n -> entry m i j = ident i j) -> det_is m 1%Qc.
Proof.
  intros n m N M H. rewrite <- (laplace_ident (Z.to_nat n)). rewrite <- (laplace_ext (Z.to_nat n) (entry m)); [now apply det_is_laplace|].
  rewrite Z2Nat.id by lia. exact H.
Qed.
Print Assumptions det_identity.

(* Linear in every row. *)
Theorem det_row_linear : forall n a b c r s t p q, 0 < n -> is_matrix n n a -> is_matrix n n b -> is_matrix n n c -> 0 <= r < n ->
  (forall i j, 0 <= i < n -> 0 <= j < n -> i <> r -> entry a i j = entry c i j /\ entry b i j = entry c i j) ->
  (forall j, 0 <= j < n -> entry c r j = (s * entry a r j + t * entry b r j)%Qc) ->
  det_is a p -> det_is b q -> det_is c (s * p + t * q)%Qc.
Proof.
  intros n a b c r s t p q N A B C R H1 H2 DA DB. as_laplace n A. as_laplace n B.
  pose proof (laplace_alternating (Z.to_nat n)) as L. rewrite Z2Nat.id in L by lia. set (f := laplace (Z.to_nat n)) in *.
  assert (EA : f (entry a) = f (set_row (entry c) r (entry a r))).
  { apply (alt_ext n f L). intros i j I J. unfold set_row. destruct (Z.eqb_spec i r) as [->|NE]; auto. now apply H1. }
  assert (EB : f (entry b) = f (set_row (entry c) r (entry b r))).
  { apply (alt_ext n f L). intros i j I J. unfold set_row. destruct (Z.eqb_spec i r) as [->|NE]; auto. now apply H1. }
  rewrite EA, EB, <- !(alt_scale n f L), <- (alt_plus n f L) by auto.
  rewrite <- (alt_ext n f L (entry c)); [now apply det_is_laplace|].
  intros i j I J. unfold set_row. destruct (Z.eqb_spec i r) as [->|NE]; auto.
Qed.
Print Assumptions det_row_linear.

(* Exchanging two rows changes the sign. *)
Theorem det_row_swap : forall n a b r s p, 0 < n -> is_matrix n n a -> is_matrix n n b -> 0 <= r < n -> 0 <= s < n -> r <> s ->
  (forall i j, 0 <= i < n -> 0 <= j < n -> entry b i j = if i =? r then entry a s j else if i =? s then entry a r j else entry a i j) ->
  det_is a p -> det_is b (- p)%Qc.
Proof.
  intros n a b r s p N A B R S NE H DA. as_laplace n A.
  pose proof (laplace_alternating (Z.to_nat n)) as L. rewrite Z2Nat.id in L by lia.
  rewrite <- (alt_swap n _ L (entry a) r s) by auto. rewrite <- (alt_ext n _ L (entry b)); [now apply det_is_laplace|].
  intros i j I J. rewrite H by auto. unfold tau. destruct (i =? r), (i =? s); auto.
Qed.
Print Assumptions det_row_swap.

Lemma product_alternating n B : 0 <= n -> alternating n (fun A => laplace (Z.to_nat n) (fun i j => qsum 0 n (fun k => A i k * B k j)%Qc)).
Proof.
  intros N. pose proof (laplace_alternating (Z.to_nat n)) as L. rewrite Z2Nat.id in L by lia. set (f := laplace (Z.to_nat n)) in *.
  assert (G : forall A r u, f (fun i j => qsum 0 n (fun k => set_row A r u i k * B k j)%Qc) =
    f (set_row (fun i j => qsum 0 n (fun k => A i k * B k j)%Qc) r (fun j => qsum 0 n (fun k => u k * B k j)%Qc))).
  { intros A r u. apply (alt_ext n f L). intros i j I J. unfold set_row. destruct (i =? r); auto. }
  split.
  - intros A A' E. apply (alt_ext n f L). intros i j I J. apply qsum_ext. intros k Hk. now rewrite E.
  - intros A r u v R. rewrite !G, <- (alt_plus n f L) by auto. apply (alt_row n f L); auto. intros j J. rewrite <- qsum_plus. apply qsum_ext. intros. ring.
  - intros A r c u R. rewrite !G, <- (alt_scale n f L) by auto. apply (alt_row n f L); auto. intros j J. rewrite <- qsum_mul_l. apply qsum_ext. intros. ring.
  - intros A r s R S NE H. apply (alt_same n f L _ r s); auto. intros j J. apply qsum_ext. intros k Hk. now rewrite H.
Qed.

(* The determinant of a product is the product of the determinants. *)
Theorem det_product : forall n a b c p q, 0 < n -> is_matrix n n a -> is_matrix n n b -> is_matrix n n c ->
  product_is n (entry a) (entry b) (entry c) -> det_is a p -> det_is b q -> det_is c (p * q)%Qc.
Proof.
  intros n a b c p q N A B C H DA DB. as_laplace n A. as_laplace n B.
  pose proof (laplace_alternating (Z.to_nat n)) as L. rewrite Z2Nat.id in L by lia. set (f := laplace (Z.to_nat n)) in *.
  pose proof (product_alternating n (entry b) ltac:(lia)) as F. set (g := fun A => f (fun i j => qsum 0 n (fun k => A i k * entry b k j)%Qc)) in *.
  assert (GI : g ident = f (entry b)).
  { apply (alt_ext n f L). intros i j I J. rewrite (qsum_one 0 n i); auto; [unfold ident; rewrite Z.eqb_refl; ring|].
    intros k Hk NE. unfold ident. destruct (Z.eqb_spec i k); [lia|ring]. }
  assert (GC : g (entry a) = f (entry c)) by (apply (alt_ext n f L); intros i j I J; now apply H).
  replace (f (entry a) * f (entry b))%Qc with (f (entry c)); [now apply det_is_laplace|].
  rewrite <- GC, <- GI. destruct (alt_multiple n a g ltac:(lia) A F) as [(_ & x & _ & E & X)|(_ & E & X)].
  - rewrite E. fold f in X. now rewrite X.
  - rewrite E. fold f in X. rewrite X. ring.
Qed.
Print Assumptions det_product.

(* It is zero exactly for the matrices that have no inverse. *)
Theorem det_zero_iff_singular : forall n m q, 0 < n -> is_matrix n n m -> det_is m q -> (q = 0%Qc <-> inverse m = Throw OtherErr).
Proof.
  intros n m q N M D. as_laplace n M. pose proof (laplace_alternating (Z.to_nat n)) as L. rewrite Z2Nat.id in L by lia.
  rewrite (inverse_singular n m ltac:(lia) M). destruct (alt_multiple n m _ ltac:(lia) M L) as [(R & x & X & _ & ->)|(NR & _ & ->)].
  - split; [congruence|]. intros (y & i & I & Y & SY). exfalso. apply Y. now apply R.
  - split; auto. intros _. destruct (inverse_ok n m ltac:(lia) M) as [(y & _ & _ & R & _)|(_ & x & s & S & X & SX)]; [tauto|].
    exists x, s. split; auto. split; auto. rewrite X. discriminate.
Qed.
Print Assumptions det_zero_iff_singular.

(* The overload for two by two. *)
Theorem det22_agrees : forall m, is_matrix 2 2 m -> exists q, det22 m = Ok q /\ det_is m q.
Proof.
  intros m M. unfold det22. rewrite !(mget_ok 2 2) by (auto; lia). cbn [bind]. eexists. split; [reflexivity|].
  exists 2%nat. intros g G. destruct g as [|[|g]]; try lia. unfold det. pose proof M as [R C]. rewrite R, C. cbn [Z.eqb negb Pos.eqb det_loop]. rewrite R, C. cbn [Z.eqb negb Pos.eqb].
  rewrite !(mget_ok 2 2) by (auto; lia). cbn [bind]. f_equal. ring.
Qed.
Print Assumptions det22_agrees.

Example det_case : let m := of_rows 0%Qc [[Q2Qc 0; Q2Qc 2; Q2Qc 1]; [Q2Qc 1; Q2Qc 3; Q2Qc 5]; [Q2Qc 2; Q2Qc 0; Q2Qc 8]] in
  is_matrix 3 3 m /\ match det 10 m with Ok q => this q = (-2 # 1)%Q | _ => False end.
Proof. split; [split; reflexivity|]. vm_compute. reflexivity. Qed.

(* The determinant of the empty matrix is one, but the function answers zero: the empty identity
   is an identity with determinant zero, and it has an inverse. *)
Theorem det_empty_refuted : exists m, is_matrix 0 0 m /\ det_is m 0%Qc /\ inverse m = Ok m.
Proof.
  exists (zeros 0 0). split; [split; reflexivity|]. split.
  - exists 1%nat. intros g G. destruct g; [lia|]. destruct g; reflexivity.
  - reflexivity.
Qed.
Print Assumptions det_empty_refuted.
