(* The factorisation L D L^T without any program. *)
From Coq Require Import ZArith List Lia Bool QArith Qcanon Field.
From Verif Require Import Lib.Base Lib.Img Lib.QSum Sky.Spec.
Local Open Scope Z_scope.

Lemma unit_lt L i k : k < i -> unit_lower L i k = L i k.
Proof. intros. unfold unit_lower. destruct (Z.ltb_spec k i); auto. lia. Qed.
Lemma unit_eq L i : unit_lower L i i = 1%Qc.
Proof. unfold unit_lower. rewrite Z.ltb_irrefl, Z.eqb_refl. reflexivity. Qed.
Lemma unit_gt L i k : i < k -> unit_lower L i k = 0%Qc.
Proof. intros. unfold unit_lower. destruct (Z.ltb_spec k i); [lia|]. destruct (Z.eqb_spec k i); auto. lia. Qed.

(* the equations the algorithm establishes column by column *)
Definition factor_eq (A : Z -> Z -> Qc) (c : Z -> Z -> Qc) (i k : Z) : Prop :=
  A i k = (qsum 0 k (fun m => c i m * c m m * c k m) + (if i =? k then c k k else c i k * c k k))%Qc.

Lemma ldlt_sym n L D i j : ldlt n L D i j = ldlt n L D j i.
Proof. apply qsum_ext. intros. ring. Qed.

Lemma factor_ldlt n A c : symmetric n A ->
  (forall i k, 0 <= k <= i -> i < n -> factor_eq A c i k) ->
  forall i j, 0 <= i < n -> 0 <= j < n -> A i j = ldlt n c (fun k => c k k) i j.
Proof.
  intros Sy F. assert (K : forall i k, 0 <= k <= i -> i < n -> A i k = ldlt n c (fun k => c k k) i k).
  { intros i k Ki Ni. rewrite (F i k Ki Ni). unfold ldlt.
    rewrite (qsum_app 0 k n), (qsum_cons k n) by lia.
    rewrite (qsum_zero (k + 1) n) by (intros m Hm; rewrite (unit_gt c k m) by lia; ring).
    rewrite unit_eq, Qcplus_0_r. f_equal.
    - apply qsum_ext. intros m Hm. rewrite !unit_lt by lia. reflexivity.
    - destruct (Z.eqb_spec i k) as [->|N]; [rewrite unit_eq; ring|]. rewrite unit_lt by lia. ring. }
  intros i j Hi Hj. destruct (Z.le_ge_cases j i).
  - apply K; lia.
  - rewrite (Sy i j), ldlt_sym by auto. apply K; lia.
Qed.

Lemma times_ldlt n A L D x i : (forall j, 0 <= j < n -> A i j = ldlt n L D i j) ->
  times n A x i = qsum 0 n (fun k => unit_lower L i k * (D k * qsum 0 n (fun m => unit_lower L m k * x m)))%Qc.
Proof.
  intros E. unfold times. rewrite (qsum_ext 0 n _ (fun j => qsum 0 n (fun k => unit_lower L i k * D k * (unit_lower L j k * x j))%Qc)).
  - rewrite qsum_swap. apply qsum_ext. intros k Hk. rewrite qsum_mul_l. ring.
  - intros j Hj. rewrite E by auto. unfold ldlt. rewrite <- qsum_mul_r. apply qsum_ext. intros. ring.
Qed.

(* a sum against column k of a unit lower triangle, and against row i *)
Lemma unit_col n L x k : 0 <= k < n ->
  qsum 0 n (fun m => unit_lower L m k * x m)%Qc = (x k + qsum (k + 1) n (fun m => L m k * x m))%Qc.
Proof.
  intros K. rewrite (qsum_app 0 k n), (qsum_cons k n) by lia.
  rewrite (qsum_zero 0 k) by (intros m Hm; rewrite (unit_gt L m k) by lia; ring).
  rewrite unit_eq. rewrite (qsum_ext (k + 1) n _ (fun m => L m k * x m)%Qc); [ring|].
  intros m Hm. rewrite unit_lt by lia. reflexivity.
Qed.
Lemma unit_row n L x i : 0 <= i < n ->
  qsum 0 n (fun k => unit_lower L i k * x k)%Qc = (x i + qsum 0 i (fun k => L i k * x k))%Qc.
Proof.
  intros K. rewrite (qsum_app 0 i n), (qsum_cons i n) by lia.
  rewrite (qsum_zero (i + 1) n) by (intros m Hm; rewrite (unit_gt L i m) by lia; ring).
  rewrite unit_eq. rewrite (qsum_ext 0 i _ (fun k => L i k * x k)%Qc); [ring|].
  intros m Hm. rewrite unit_lt by lia. reflexivity.
Qed.

(* systems with the transposed triangle can always be solved *)
Lemma back_solve n L (b : Z -> Qc) : 0 <= n ->
  exists x, forall k, 0 <= k < n -> qsum 0 n (fun m => unit_lower L m k * x m)%Qc = b k.
Proof.
  intros N.
  assert (H : forall c, (Z.of_nat c <= n) -> exists x, forall k, n - Z.of_nat c <= k < n -> (x k + qsum (k + 1) n (fun m => L m k * x m))%Qc = b k).
  { induction c as [|c IH]; intros Hc.
    - exists (fun _ => 0%Qc). intros. lia.
    - destruct IH as (x & Hx); [lia|]. set (t := n - Z.of_nat (S c)) in *.
      exists (fun i => if i =? t then (b t - qsum (t + 1) n (fun m => L m t * x m))%Qc else x i).
      intros k Hk. cbv beta. destruct (Z.eqb_spec k t) as [->|Ne].
      + match goal with |- (_ + ?s)%Qc = _ => replace s with (qsum (t + 1) n (fun m => L m t * x m)%Qc) end; [ring|].
        apply qsum_ext. intros m Hm. cbv beta. destruct (Z.eqb_spec m t); [lia|]. reflexivity.
      + rewrite <- (Hx k) by lia. f_equal. apply qsum_ext. intros m Hm. destruct (Z.eqb_spec m t); [lia|]. reflexivity. }
  destruct (H (Z.to_nat n)) as (x & Hx); [lia|]. exists x. intros k Hk. rewrite unit_col by auto. apply Hx. lia.
Qed.

(* The vector that exposes pivot j: A x is the pivot at j and zero above. *)
Lemma pivot_vector A c j : 0 <= j -> symmetric (j + 1) A ->
  (forall i k, 0 <= k <= i -> i <= j -> k < j -> factor_eq A c i k) ->
  let d := (A j j - qsum 0 j (fun m => c j m * c j m * c m m))%Qc in
  exists x, x j = 1%Qc /\ forall i, 0 <= i <= j -> times (j + 1) A x i = if i =? j then d else 0%Qc.
Proof.
  intros J Sy F d.
  set (c' := fun i k => if (i =? j) && (k =? j) then d else c i k).
  assert (F' : forall i k, 0 <= k <= i -> i < j + 1 -> factor_eq A c' i k).
  { intros i k K I. unfold factor_eq.
    rewrite (qsum_ext 0 k _ (fun m => c i m * c m m * c k m)%Qc).
    2:{ intros m Hm. unfold c'. rewrite !(proj2 (Z.eqb_neq m j)) by lia. rewrite !andb_false_r. reflexivity. }
    destruct (Z.eq_dec k j) as [->|Nk].
    - assert (i = j) by lia. subst i. rewrite Z.eqb_refl. unfold c'. rewrite Z.eqb_refl. cbn [andb]. unfold d.
      rewrite (qsum_ext 0 j (fun m => c j m * c j m * c m m)%Qc (fun m => c j m * c m m * c j m)%Qc) by (intros; ring). ring.
    - rewrite (F i k) by lia. unfold c'. rewrite (proj2 (Z.eqb_neq k j)) by lia. rewrite !andb_false_r. reflexivity. }
  destruct (back_solve (j + 1) c' (fun k => if k =? j then 1%Qc else 0%Qc)) as (x & Hx); [lia|].
  exists x. split.
  - pose proof (Hx j ltac:(lia)) as E. rewrite unit_col, qsum_nil, Z.eqb_refl in E by lia. rewrite <- E. ring.
  - intros i Hi. rewrite (times_ldlt (j + 1) A c' (fun k => c' k k) x i).
    2:{ intros k Hk. apply (factor_ldlt (j + 1) A c'); auto; lia. }
    rewrite (qsum_one 0 (j + 1) j).
    + rewrite Hx, Z.eqb_refl by lia. destruct (Z.eqb_spec i j) as [->|N].
      * rewrite unit_eq. unfold c'. rewrite Z.eqb_refl. cbn [andb]. ring.
      * rewrite unit_gt by lia. ring.
    + lia.
    + intros k Hk Nk. rewrite (Hx k) by lia. rewrite (proj2 (Z.eqb_neq k j)) by lia. ring.
Qed.

Lemma pivot_nonzero n A c j : 0 <= j < n -> symmetric n A -> leading_regular n A ->
  (forall i k, 0 <= k <= i -> i <= j -> k < j -> factor_eq A c i k) ->
  (A j j - qsum 0 j (fun m => c j m * c j m * c m m))%Qc <> 0%Qc.
Proof.
  intros J Sy Re F Z0. destruct (pivot_vector A c j) as (x & X1 & HX); [lia| |auto|].
  - intros i k Hi Hk. apply Sy; lia.
  - assert (x j = 0%Qc).
    { apply (Re (j + 1)); [lia| |lia]. intros i Hi. rewrite HX by lia. destruct (i =? j); auto. }
    rewrite X1 in H. discriminate.
Qed.

Lemma pivot_positive n A c j : 0 <= j < n -> symmetric n A -> positive_definite n A ->
  (forall i k, 0 <= k <= i -> i <= j -> k < j -> factor_eq A c i k) ->
  (0 < A j j - qsum 0 j (fun m => c j m * c j m * c m m))%Qc.
Proof.
  intros J Sy Pd F. destruct (pivot_vector A c j) as (x & X1 & HX); [lia| |auto|].
  - intros i k Hi Hk. apply Sy; lia.
  - set (y := fun i => if i <=? j then x i else 0%Qc).
    assert (P : (0 < qsum 0 n (fun i => y i * times n A y i))%Qc).
    { apply Pd. exists j. split; auto. unfold y. rewrite Z.leb_refl, X1. discriminate. }
    rewrite (qsum_one 0 n j) in P; [|lia|].
    + assert (T : forall i, 0 <= i <= j -> times n A y i = times (j + 1) A x i).
      { intros i Hi. unfold times. rewrite (qsum_app 0 (j + 1) n) by lia.
        rewrite (qsum_zero (j + 1) n).
        - rewrite Qcplus_0_r. apply qsum_ext. intros m Hm. unfold y. rewrite (proj2 (Z.leb_le m j)) by lia. reflexivity.
        - intros m Hm. unfold y. rewrite (proj2 (Z.leb_gt m j)) by lia. ring. }
      rewrite T, HX, Z.eqb_refl in P by lia. unfold y in P. rewrite Z.leb_refl, X1, Qcmult_1_l in P. exact P.
    + intros i Hi Ni. unfold y at 1. destruct (Z.leb_spec i j) as [L|L]; [|ring].
      assert (T : times n A y i = times (j + 1) A x i).
      { unfold times. rewrite (qsum_app 0 (j + 1) n) by lia.
        rewrite (qsum_zero (j + 1) n).
        - rewrite Qcplus_0_r. apply qsum_ext. intros m Hm. unfold y. rewrite (proj2 (Z.leb_le m j)) by lia. reflexivity.
        - intros m Hm. unfold y. rewrite (proj2 (Z.leb_gt m j)) by lia. ring. }
      rewrite T, HX by lia. rewrite (proj2 (Z.eqb_neq i j)) by auto. ring.
Qed.

(* positive definite matrices have regular leading blocks *)
Lemma posdef_regular n A : positive_definite n A -> leading_regular n A.
Proof.
  intros Pd k K x Sx i Hi. destruct (Qc_eq_dec (x i) 0) as [|N]; auto. exfalso.
  set (y := fun m => if m <? k then x m else 0%Qc).
  assert (P : (0 < qsum 0 n (fun i => y i * times n A y i))%Qc).
  { apply Pd. exists i. split; [lia|]. unfold y. destruct (Z.ltb_spec i k); [auto|lia]. }
  rewrite qsum_zero in P; [now apply Qclt_not_eq in P|].
  intros m Hm. unfold y at 1. destruct (Z.ltb_spec m k); [|ring].
  replace (times n A y m) with (times k A x m); [rewrite Sx by lia; ring|].
  unfold times. rewrite (qsum_app 0 k n) by lia. rewrite (qsum_zero k n).
  - rewrite Qcplus_0_r. apply qsum_ext. intros q Hq. unfold y. destruct (Z.ltb_spec q k); [reflexivity|lia].
  - intros q Hq. unfold y. destruct (Z.ltb_spec q k); [lia|ring].
Qed.

(* the three steps of the solver *)
Lemma solve_steps n A L D b x1 x2 x :
  (forall i j, 0 <= i < n -> 0 <= j < n -> A i j = ldlt n L D i j) ->
  (forall i, 0 <= i < n -> (x1 i + qsum 0 i (fun k => L i k * x1 k))%Qc = b i) ->
  (forall i, 0 <= i < n -> (D i * x2 i)%Qc = x1 i) ->
  (forall k, 0 <= k < n -> (x k + qsum (k + 1) n (fun m => L m k * x m))%Qc = x2 k) ->
  solves n A x b.
Proof.
  intros F E1 E2 E3 i Hi. rewrite (times_ldlt n A L D x i) by (intros; apply F; auto).
  rewrite (qsum_ext 0 n _ (fun k => unit_lower L i k * x1 k)%Qc).
  - rewrite unit_row by auto. apply E1; auto.
  - intros k Hk. rewrite unit_col, E3, E2 by auto. reflexivity.
Qed.

Lemma times_minus n A x y i : times n A (fun j => x j - y j)%Qc i = (times n A x i - times n A y i)%Qc.
Proof.
  unfold times. rewrite (qsum_ext 0 n _ (fun j => A i j * x j + (- (1)) * (A i j * y j))%Qc) by (intros; ring).
  rewrite qsum_plus, qsum_mul_l. ring.
Qed.
Lemma solution_unique n A x y b : 0 <= n -> leading_regular n A -> solves n A x b -> solves n A y b ->
  forall i, 0 <= i < n -> x i = y i.
Proof.
  intros N Re Sx Sy i Hi.
  assert (E : (x i - y i)%Qc = 0%Qc).
  { apply (Re n ltac:(lia) (fun j => x j - y j)%Qc); auto.
    intros k Hk. rewrite times_minus, Sx, Sy by auto. ring. }
  replace (x i) with (x i - y i + y i)%Qc by ring. rewrite E. ring.
Qed.
