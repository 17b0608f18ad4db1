(* Differentiation kernels: exact on polynomials of low degree. *)
From Coq Require Import ZArith List Lia Bool QArith Qcanon Field.
From Verif Require Import Lib.Base Lib.Img Lib.QSum Sky.Spec MInv.Model MInv.Spec MInv.Proofs MInv.Solve Conv.Model Conv.Spec Conv.Proofs Conv.Gauss.
Import ListNotations.
Local Open Scope Z_scope.

(** ** Polynomials *)
Lemma peval_padd p q t : peval (padd p q) t = (peval p t + peval q t)%Qc.
Proof. revert q. induction p as [|a p IH]; intros [|b q]; cbn [padd peval]; try ring. rewrite IH. ring. Qed.
Lemma padd_nil_r p : padd p [] = p.
Proof. destruct p; reflexivity. Qed.
Lemma padd_length p q : length (padd p q) = Nat.max (length p) (length q).
Proof. revert q. induction p as [|a p IH]; intros [|b q]; cbn [padd length]; auto. now rewrite IH. Qed.

Lemma pderivs_succ n p : pderivs (S n) p = pderivs n (pderiv p).
Proof. induction n as [|n IH]; [reflexivity|]. cbn [pderivs] in *. now rewrite IH. Qed.
Lemma padd_assoc p q r : padd (padd p q) r = padd p (padd q r).
Proof. revert q r. induction p as [|a p IH]; intros [|b q] [|c r]; cbn [padd]; auto. rewrite IH. f_equal. ring. Qed.
Lemma padd_comm p q : padd p q = padd q p.
Proof. revert q. induction p as [|a p IH]; intros [|b q]; cbn [padd]; auto. rewrite IH. f_equal. ring. Qed.
Lemma pderiv_add p q : pderiv (padd p q) = padd (pderiv p) (pderiv q).
Proof.
  revert q. induction p as [|a p IH]; intros [|b q]; cbn [padd pderiv]; auto.
  - now rewrite !padd_nil_r.
  - rewrite IH. rewrite <- (padd_assoc (padd p (0%Qc :: pderiv p)) q), (padd_assoc p (0%Qc :: pderiv p) q), (padd_comm (0%Qc :: pderiv p) q).
    rewrite <- padd_assoc, (padd_assoc (padd p q)). f_equal.
Qed.
Lemma pderivs_add n p q : pderivs n (padd p q) = padd (pderivs n p) (pderivs n q).
Proof. induction n as [|n IH]; cbn [pderivs]; auto. now rewrite IH, pderiv_add. Qed.

(* derivatives of c + t p *)
Lemma pderivs_cons n : forall c p t, peval (pderivs (S n) (c :: p)) t = (t * peval (pderivs (S n) p) t + of_int (Z.of_nat n + 1) * peval (pderivs n p) t)%Qc.
Proof.
  induction n as [|n IH]; intros c p t.
  - cbn [pderivs pderiv]. rewrite peval_padd. cbn [peval]. change (of_int (Z.of_nat 0 + 1)) with 1%Qc. ring.
  - rewrite pderivs_succ. cbn [pderiv]. rewrite pderivs_add, peval_padd, IH, <- !pderivs_succ.
    replace (Z.of_nat (S n) + 1) with (Z.of_nat n + 1 + 1) by lia. rewrite (of_int_add (Z.of_nat n + 1) 1), of_int_1. ring.
Qed.

Lemma pderivs_nil n : pderivs n [] = [].
Proof. induction n as [|n IH]; cbn [pderivs]; auto. now rewrite IH. Qed.
Lemma pderivs_high p : forall n t, (length p <= n)%nat -> peval (pderivs n p) t = 0%Qc.
Proof.
  induction p as [|c p IH]; intros n t H; [now rewrite pderivs_nil|]. cbn [length] in H. destruct n as [|n]; [lia|].
  rewrite pderivs_cons, !IH by lia. ring.
Qed.

(* powers divided by factorials *)
Fixpoint term (x : Qc) (i : nat) : Qc := match i with O => 1%Qc | S i => (term x i * x / of_int (Z.of_nat i + 1))%Qc end.
Lemma nat_nz i : of_int (Z.of_nat i + 1) <> 0%Qc.
Proof. intros E. rewrite <- of_int_0 in E. apply of_int_inj in E. lia. Qed.

Lemma taylor p : forall n x h, (length p <= n)%nat ->
  peval p (x + h)%Qc = qsum 0 (Z.of_nat n) (fun i => peval (pderivs (Z.to_nat i) p) x * term h (Z.to_nat i))%Qc.
Proof.
  induction p as [|c p IH]; intros n x h L.
  - rewrite qsum_zero; [reflexivity|]. intros i Hi. rewrite pderivs_high by (cbn; lia). ring.
  - cbn [length] in L. destruct n as [|n]; [lia|]. cbn [peval].
    rewrite (IH n) by lia. set (g := fun i : Z => (peval (pderivs (Z.to_nat i) p) x * term h (Z.to_nat i))%Qc).
    replace (Z.of_nat (S n)) with (Z.of_nat n + 1) by lia. rewrite (qsum_cons 0 (Z.of_nat n + 1)) by lia.
    rewrite (qsum_shift 0 (Z.of_nat n) 1).
    rewrite (qsum_ext 0 (Z.of_nat n) (fun i => peval (pderivs (Z.to_nat (i + 1)) (c :: p)) x * term h (Z.to_nat (i + 1)))%Qc (fun i => x * g (i + 1)%Z + h * g i)%Qc).
    2:{ intros i Hi. unfold g. replace (Z.to_nat (i + 1)) with (S (Z.to_nat i)) by lia. rewrite pderivs_cons. cbn [term].
        pose proof (nat_nz (Z.to_nat i)). field. auto. }
    rewrite qsum_plus, !qsum_mul_l.
    assert (E : (qsum 0 (Z.of_nat n) g = g 0%Z + qsum 0 (Z.of_nat n) (fun i => g (i + 1)%Z))%Qc).
    { transitivity (qsum 0 (Z.of_nat n + 1) g).
      - rewrite qsum_snoc by lia. unfold g at 3. rewrite pderivs_high by lia. ring.
      - rewrite qsum_cons by lia. rewrite (qsum_shift 0 (Z.of_nat n) 1). reflexivity. }
    rewrite Qcmult_plus_distr_l. rewrite E at 1. change (Z.to_nat 0) with O. cbn [pderivs peval term].
    unfold g at 1. change (Z.to_nat 0) with O. cbn [pderivs term]. ring.
Qed.

(** ** Interpolation: the matrix of powers is regular *)
Fixpoint pscale (c : Qc) (p : list Qc) : list Qc := match p with [] => [] | a :: p => (c * a)%Qc :: pscale c p end.
Lemma peval_pscale c p t : peval (pscale c p) t = (c * peval p t)%Qc.
Proof. induction p as [|a p IH]; cbn [pscale peval]; [ring|]. rewrite IH. ring. Qed.
Lemma pscale_length c p : length (pscale c p) = length p.
Proof. induction p; cbn; auto. Qed.
(* the product of (t - r) *)
Fixpoint with_roots (rs : list Qc) : list Qc := match rs with [] => [1%Qc] | r :: rs => padd (0%Qc :: with_roots rs) (pscale (- r) (with_roots rs)) end.
Lemma with_roots_length rs : length (with_roots rs) = S (length rs).
Proof. induction rs as [|r rs IH]; [reflexivity|]. cbn [with_roots]. rewrite padd_length, pscale_length. cbn [length]. rewrite IH. lia. Qed.
Lemma with_roots_eval r rs t : peval (with_roots (r :: rs)) t = ((t - r) * peval (with_roots rs) t)%Qc.
Proof. cbn [with_roots]. rewrite peval_padd, peval_pscale. cbn [peval]. ring. Qed.
Lemma with_roots_zero rs t : In t rs -> peval (with_roots rs) t = 0%Qc.
Proof. induction rs as [|r rs IH]; [intros []|]. intros [->|I]; rewrite with_roots_eval; [ring|]. rewrite (IH I). ring. Qed.
Lemma with_roots_nonzero rs t : ~ In t rs -> peval (with_roots rs) t <> 0%Qc.
Proof.
  induction rs as [|r rs IH]; intros N.
  { cbn [with_roots peval]. intros E. replace (1 + t * 0)%Qc with 1%Qc in E by ring. discriminate E. }
  rewrite with_roots_eval. intros E. apply Qcmult_integral in E as [E|E].
  - apply N. left. symmetry. replace t with (t - r + r)%Qc by ring. rewrite E. ring.
  - apply IH in E; auto. intros I. apply N. now right.
Qed.

(* if all the moments of v vanish, so do its sums against polynomials *)
Lemma moments n (v x : Z -> Qc) : (forall i, 0 <= i < n -> qsum 0 n (fun j => term (x j) (Z.to_nat i) * v j)%Qc = 0%Qc) ->
  forall p, Z.of_nat (length p) <= n -> qsum 0 n (fun j => peval p (x j) * v j)%Qc = 0%Qc.
Proof.
  intros H p L.
  rewrite (qsum_ext 0 n _ (fun j => qsum 0 (Z.of_nat (length p)) (fun i => peval (pderivs (Z.to_nat i) p) 0 * (term (x j) (Z.to_nat i) * v j)))%Qc).
  - rewrite qsum_swap. apply qsum_zero. intros i Hi. rewrite qsum_mul_l, H by lia. ring.
  - intros j Hj. rewrite <- (Qcplus_0_l (x j)) at 1. rewrite (taylor p (length p)) by lia. rewrite <- qsum_mul_r. apply qsum_ext. intros. ring.
Qed.

Lemma filter_shorter (f : Z -> bool) l : (length (filter f l) <= length l)%nat.
Proof. induction l as [|a l IH]; cbn [filter]; auto. destruct (f a); cbn [length]; lia. Qed.
Lemma powers_regular n (x : Z -> Qc) : (forall i j, 0 <= i < n -> 0 <= j < n -> x i = x j -> i = j) ->
  regular n (fun i j => term (x j) (Z.to_nat i)).
Proof.
  intros D v Sv k K. pose proof (moments n v x Sv) as M.
  set (rs := map x (filter (fun j => negb (j =? k)) (zrange 0 n))).
  assert (L : Z.of_nat (length (with_roots rs)) <= n).
  { rewrite with_roots_length. unfold rs. rewrite map_length.
    assert (G : (length (filter (fun j => negb (j =? k)%Z) (zrange 0%Z n)) < length (zrange 0%Z n))%nat).
    { assert (I : In k (zrange 0 n)) by (apply in_zrange; lia). revert I. generalize (zrange 0 n) as l. induction l as [|a l IH]; [intros []|].
      intros I. cbn [filter]. destruct (Z.eqb_spec a k) as [->|NE]; cbn [negb length].
      - pose proof (filter_shorter (fun j => negb (j =? k)) l). lia.
      - destruct I as [->|I]; [lia|]. specialize (IH I). lia. }
    rewrite zrange_length in G. lia. }
  specialize (M (with_roots rs) L). rewrite (qsum_one 0 n k) in M; auto.
  - apply Qcmult_integral in M as [M|M]; auto. exfalso. revert M. apply with_roots_nonzero. unfold rs. rewrite in_map_iff.
    intros (j & E & I). apply filter_In in I as [I N]. apply in_zrange in I. apply D in E; auto. subst. now rewrite Z.eqb_refl in N.
  - intros i Hi NE. rewrite with_roots_zero; [ring|]. unfold rs. apply in_map, filter_In. split; [apply in_zrange; lia|].
    destruct (Z.eqb_spec i k); [lia|reflexivity].
Qed.

(** ** The kernel *)
Definition offset (n j : Z) : Z := Z.quot n 2 - j.

Lemma power_matrix_ok n : 0 <= n ->
  exists m, power_matrix n = Ok m /\ is_matrix n n m /\
    forall i j, 0 <= i < n -> 0 <= j < n -> entry m i j = term (of_int (offset n j)) (Z.to_nat i).
Proof.
  intros N. unfold power_matrix. cbn zeta.
  match goal with |- context [for_up 0 n ?g (zeros n n)] =>
    destruct (for_up_inv (fun c u => is_matrix n n u /\ forall i j, 0 <= i < n -> 0 <= j < c -> entry u i j = term (of_int (offset n j)) (Z.to_nat i))
      g 0 n (zeros n n)) as (m & E & M & P) end; [lia| | |].
  - split; [split; reflexivity|]. intros. lia.
  - intros c u Hc (Mu & Pu).
    match goal with |- context [for_up 0 n ?g ?z] =>
      destruct (for_up_inv (fun r t => let '(v, q) := t in is_matrix n n v /\ q = term (of_int (offset n c)) (Z.to_nat r) /\
        (forall i j, 0 <= i < n -> 0 <= j < c -> entry v i j = entry u i j) /\
        forall i, 0 <= i < r -> entry v i c = term (of_int (offset n c)) (Z.to_nat i)) g 0 n z) as ([v q] & -> & Mv & _ & Pv & Qv) end; [lia| | |].
    + split; auto. split; [reflexivity|]. split; auto. intros. lia.
    + intros r [v q] Hr (Mv & -> & Pv & Qv). destruct (mset_ok n n v r c (term (of_int (offset n c)) (Z.to_nat r)) Mv Hr Hc) as (w & -> & Mw & Pw). cbn [bind].
      eexists. split; [reflexivity|]. split; auto. split.
      { replace (Z.to_nat (r + 1)) with (S (Z.to_nat r)) by lia. cbn [term]. rewrite Z2Nat.id by lia. reflexivity. }
      split.
      * intros i j I J. rewrite Pw. destruct (Z.eqb_spec j c); [lia|]. rewrite andb_false_r. auto.
      * intros i I. rewrite Pw, Z.eqb_refl. destruct (Z.eqb_spec i r) as [->|]; cbn [andb]; auto. apply Qv. lia.
    + cbn [bind]. exists v. split; auto. split; auto. intros i j I J. destruct (Z.eq_dec j c) as [->|]; auto. rewrite Pv by lia. apply Pu; lia.
  - exists m. auto.
Qed.

Lemma mat_vec_ok n m v : 0 <= n -> is_matrix n n m -> size v = n ->
  exists k, mat_vec m v = Ok k /\ size k = n /\
    forall i, 0 <= i < n -> nth (Z.to_nat i) k 0%Qc = qsum 0 n (fun j => entry m i j * nth (Z.to_nat j) v 0)%Qc.
Proof.
  intros N M S. unfold mat_vec. pose proof M as [-> ->].
  match goal with |- context [for_up 0 n ?g []] =>
    destruct (for_up_inv (fun c l => size l = c /\ forall i, 0 <= i < c -> nth (Z.to_nat i) l 0%Qc = qsum 0 n (fun j => entry m i j * nth (Z.to_nat j) v 0)%Qc)
      g 0 n []) as (k & E & Sk & P) end; [lia| | |].
  - split; [reflexivity|]. intros. lia.
  - intros c l Hc (Sl & Pl).
    match goal with |- context [for_up 0 n ?g 0%Qc] =>
      destruct (for_up_inv (fun d q => q = qsum 0 d (fun j => entry m c j * nth (Z.to_nat j) v 0)%Qc) g 0 n 0%Qc) as (q & -> & ->) end; [lia|reflexivity| |].
    + intros j q Hj ->. rewrite (mget_ok n n), vread_ok by (auto; lia). cbn [bind]. eexists. split; [reflexivity|]. now rewrite qsum_snoc by lia.
    + cbn [bind]. eexists. split; [reflexivity|]. unfold size in *. split; [rewrite app_length; cbn [length]; lia|].
      intros i I. destruct (Z.eq_dec i c) as [->|].
      * rewrite app_nth2 by lia. replace (Z.to_nat c - length l)%nat with O by lia. reflexivity.
      * rewrite app_nth1 by lia. apply Pl. lia.
  - exists k. auto.
Qed.

(* a kernel whose moments are those of the derivative *)
Definition selects (n d : Z) (k : list Qc) : Prop :=
  size k = n /\ forall i, 0 <= i < n -> qsum 0 n (fun j => term (of_int (offset n j)) (Z.to_nat i) * nth (Z.to_nat j) k 0)%Qc = ident i d.

Lemma selects_exact n d k p x : 0 <= d < n -> selects n d k -> Z.of_nat (length p) <= n ->
  convolution1 k (Z.quot n 2) (fun t => peval p (of_int t)) x = peval (pderivs (Z.to_nat d) p) (of_int x).
Proof.
  intros D [S H] L. unfold convolution1. fold (size k). rewrite S.
  rewrite (qsum_ext 0 n _ (fun j => qsum 0 n (fun i => peval (pderivs (Z.to_nat i) p) (of_int x) * (term (of_int (offset n j)) (Z.to_nat i) * nth (Z.to_nat j) k 0)))%Qc).
  - rewrite qsum_swap. rewrite (qsum_ext 0 n _ (fun i => peval (pderivs (Z.to_nat i) p) (of_int x) * ident i d)%Qc).
    + rewrite (qsum_one 0 n d); auto; [unfold ident; rewrite Z.eqb_refl; ring|]. intros i Hi NE. unfold ident. destruct (Z.eqb_spec i d); [lia|ring].
    + intros i Hi. rewrite qsum_mul_l, H by auto. reflexivity.
  - intros j Hj. replace (of_int (x + Z.quot n 2 - j)) with (of_int x + of_int (offset n j))%Qc.
    + rewrite (taylor p (Z.to_nat n)) by lia. rewrite Z2Nat.id by lia. rewrite <- qsum_mul_l. apply qsum_ext. intros. ring.
    + rewrite <- of_int_add. f_equal. unfold offset. lia.
Qed.

Definition deriv_size (deriv sz : Z) : Z := if sz =? 0 then deriv + Z.rem deriv 2 + 1 else sz.

Lemma three (P : Z -> Prop) : P 0 -> P 1 -> P 2 -> forall i, 0 <= i < 3 -> P i.
Proof. intros A B C i I. assert (i = 0 \/ i = 1 \/ i = 2) as [->|[->| ->]] by lia; auto. Qed.
Lemma qsum3 f : qsum 0 3 f = (f 0%Z + f 1%Z + f 2%Z)%Qc.
Proof.
  rewrite (qsum_cons 0 3), (qsum_cons (0 + 1) 3), (qsum_cons (0 + 1 + 1) 3), (qsum_nil (0 + 1 + 1 + 1) 3) by lia.
  change (0 + 1 + 1) with 2. change (0 + 1) with 1. ring.
Qed.

Lemma derivative_ok d sz : 0 < d -> sz = 0 \/ (d + Z.rem d 2 + 1 <= sz /\ Z.rem sz 2 = 1) ->
  exists k, derivative_kernel d sz = Ok k /\ d < deriv_size d sz /\ selects (deriv_size d sz) d k.
Proof.
  intros D H. unfold derivative_kernel. destruct (Z.eqb_spec d 0) as [|D0]; [lia|]. cbn zeta.
  pose proof (Z.rem_bound_pos d 2 ltac:(lia) ltac:(lia)) as Rm.
  assert (E : (if sz =? 0 then Ok (d + Z.rem d 2 + 1) else if sz <? d + Z.rem d 2 + 1 then Throw ArgumentErr else if Z.rem sz 2 =? 0 then Throw ArgumentErr else Ok sz) = Ok (deriv_size d sz)).
  { unfold deriv_size. destruct (Z.eqb_spec sz 0); auto. destruct (Z.ltb_spec sz (d + Z.rem d 2 + 1)); [lia|]. destruct (Z.eqb_spec (Z.rem sz 2) 0); [lia|auto]. }
  rewrite E. cbn [bind]. assert (N : d < deriv_size d sz) by (unfold deriv_size; destruct (Z.eqb_spec sz 0); lia).
  set (n := deriv_size d sz) in *. destruct (Z.ltb_spec n 0); [lia|].
  destruct ((d =? 1) && (n =? 3)) eqn:E1.
  { apply andb_true_iff in E1 as [E1 E2]. apply Z.eqb_eq in E1, E2. rewrite E1, E2. eexists. split; [reflexivity|]. split; [lia|].
    split; [reflexivity|]. apply three; rewrite qsum3; apply Qc_is_canon; reflexivity. }
  destruct ((d =? 2) && (n =? 3)) eqn:E2.
  { apply andb_true_iff in E2 as [E2 E3]. apply Z.eqb_eq in E2, E3. rewrite E2, E3. eexists. split; [reflexivity|]. split; [lia|].
    split; [reflexivity|]. apply three; rewrite qsum3; apply Qc_is_canon; reflexivity. }
  destruct (power_matrix_ok n) as (m & -> & M & P); [lia|]. cbn [bind].
  assert (Sz : size (repeat 0%Qc (Z.to_nat n)) = n) by (unfold size; rewrite repeat_length; lia).
  destruct (vwrite_ok (repeat 0%Qc (Z.to_nat n)) d 1%Qc) as (v & -> & Sv & Pv); [lia|]. cbn [bind].
  assert (R : regular n (entry m)).
  { assert (R : regular n (fun i j => term (of_int (offset n j)) (Z.to_nat i))).
    { apply powers_regular. intros i j I J Q. apply of_int_inj in Q. unfold offset in Q. lia. }
    intros x Sx. apply R. intros i I. rewrite <- (Sx i I). unfold times. apply qsum_ext. intros j J. now rewrite P. }
  destruct (inverse_ok n m ltac:(lia) M) as [(x & -> & Mx & _ & PX & _)|(_ & x & s & S & X & SX)].
  2:{ exfalso. specialize (R x SX s S). rewrite X in R. discriminate R. }
  cbn [bind]. destruct (mat_vec_ok n x v) as (k & -> & Sk & Pk); [lia|auto|lia|].
  exists k. split; auto. split; auto. split; auto. intros i I. rewrite <- (PX i d) by (auto; lia). apply qsum_ext. intros j J.
  rewrite P, Pk by auto. f_equal. rewrite (qsum_one 0 n d).
  - rewrite Pv, Z.eqb_refl by lia. ring.
  - lia.
  - intros l Hl NE. rewrite Pv by lia. destruct (Z.eqb_spec l d); [lia|]. rewrite nth_repeat. ring.
Qed.
