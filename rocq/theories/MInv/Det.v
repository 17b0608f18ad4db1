(* Laplace expansion along the first row is alternating and multilinear. *)
From Coq Require Import ZArith List Lia Bool QArith Qcanon Qcabs Field.
From Verif Require Import Lib.Base Lib.Img Lib.QSum Sky.Spec Sky.Algebra Sky.History MInv.Model MInv.Spec MInv.Proofs MInv.Solve MInv.Alt.
Import ListNotations.
Local Open Scope Z_scope.

Definition sgn (i : Z) : Qc := if Z.even i then 1%Qc else (- (1))%Qc.
Definition skip (i c : Z) : Z := if c <? i then c else c + 1.
Definition minor (A : fmat) (i : Z) : fmat := fun r c => A (r + 1) (skip i c).
Fixpoint laplace (n : nat) (A : fmat) : Qc :=
  match n with O => 1%Qc | S k => qsum 0 (Z.of_nat n) (fun i => sgn i * A 0%Z i * laplace k (minor A i))%Qc end.

Lemma sgn_succ i : sgn (i + 1) = (- sgn i)%Qc.
Proof. unfold sgn. replace (i + 1) with (Z.succ i) by lia. rewrite Z.even_succ, <- Z.negb_even. destruct (Z.even i); cbn [negb]; ring. Qed.
Lemma sgn_add i j : sgn (i + j) = (sgn i * sgn j)%Qc.
Proof. unfold sgn. rewrite Z.even_add. destruct (Z.even i), (Z.even j); cbn [Bool.eqb]; ring. Qed.

Lemma laplace_ext n : forall A B, eq_on (Z.of_nat n) A B -> laplace n A = laplace n B.
Proof.
  induction n as [|n IH]; intros A B E; [reflexivity|]. cbn [laplace]. apply qsum_ext. intros i Hi. rewrite (E 0 i) by lia. f_equal.
  apply IH. intros r c R C. unfold minor, skip. apply E; destruct (c <? i); lia.
Qed.

Lemma minor_set n A r v i : eq_on n (minor (set_row A r v) i) (set_row (minor A i) (r - 1) (fun c => v (skip i c))).
Proof. intros a b Ha Hb. unfold minor, set_row. destruct (Z.eqb_spec (a + 1) r), (Z.eqb_spec a (r - 1)); auto; lia. Qed.
Lemma minor_set0 n A v i : eq_on n (minor (set_row A 0 v) i) (minor A i).
Proof. intros a b Ha Hb. unfold minor, set_row. destruct (Z.eqb_spec (a + 1) 0); auto; lia. Qed.

Lemma set_row_at A r v j : set_row A r v r j = v j.
Proof. unfold set_row. now rewrite Z.eqb_refl. Qed.
Lemma set_row_off A r v i j : i <> r -> set_row A r v i j = A i j.
Proof. intros. unfold set_row. destruct (Z.eqb_spec i r); [lia|auto]. Qed.

Lemma laplace_plus n : forall A r u v, 0 <= r < Z.of_nat n ->
  laplace n (set_row A r (fun j => u j + v j)%Qc) = (laplace n (set_row A r u) + laplace n (set_row A r v))%Qc.
Proof.
  induction n as [|n IH]; intros A r u v R; [lia|]. cbn [laplace]. rewrite <- qsum_plus. apply qsum_ext. intros i Hi.
  destruct (Z.eq_dec r 0) as [->|N].
  - rewrite !(laplace_ext n _ _ (minor_set0 _ A _ i)). rewrite !set_row_at. ring.
  - rewrite !(laplace_ext n _ _ (minor_set _ A r _ i)), IH by lia. rewrite !set_row_off by lia. ring.
Qed.
Lemma laplace_scale n : forall A r c u, 0 <= r < Z.of_nat n ->
  laplace n (set_row A r (fun j => c * u j)%Qc) = (c * laplace n (set_row A r u))%Qc.
Proof.
  induction n as [|n IH]; intros A r c u R; [lia|]. cbn [laplace]. rewrite <- qsum_mul_l. apply qsum_ext. intros i Hi.
  destruct (Z.eq_dec r 0) as [->|N].
  - rewrite !(laplace_ext n _ _ (minor_set0 _ A _ i)). rewrite !set_row_at. ring.
  - rewrite !(laplace_ext n _ _ (minor_set _ A r _ i)), IH by lia. rewrite !set_row_off by lia. ring.
Qed.

(* a sum over the indices other than i *)
Lemma qsum_skip_index n i f : 0 <= i <= n ->
  qsum 0 n (fun j => f (skip i j)) = qsum 0 (n + 1) (fun k => if k =? i then 0%Qc else f k).
Proof.
  intros I. rewrite (qsum_app 0 i n), (qsum_app 0 i (n + 1)), (qsum_cons i (n + 1)) by lia. rewrite Z.eqb_refl, Qcplus_0_l.
  f_equal.
  - apply qsum_ext. intros j Hj. unfold skip. destruct (Z.ltb_spec j i), (Z.eqb_spec j i); try lia. auto.
  - rewrite (qsum_shift i n 1). apply qsum_ext. intros j Hj. unfold skip. destruct (Z.ltb_spec j i), (Z.eqb_spec (j + 1) i); try lia. auto.
Qed.

(* the expansion along the first two rows *)
Definition pair_term (n : nat) (A : fmat) (i k : Z) : Qc :=
  if k =? i then 0%Qc
  else (sgn i * sgn (if k <? i then k else k - 1)%Z * (A 0%Z i * A 1%Z k) *
        laplace n (fun r c => A (r + 2)%Z (skip (Z.max i k) (skip (Z.min i k) c))))%Qc.
Lemma laplace_two n A : laplace (S (S n)) A =
  qsum 0 (Z.of_nat n + 2) (fun i => qsum 0 (Z.of_nat n + 2) (fun k => pair_term n A i k)).
Proof.
  change (laplace (S (S n)) A) with (qsum 0 (Z.of_nat (S (S n))) (fun i => sgn i * A 0%Z i * laplace (S n) (minor A i))%Qc).
  replace (Z.of_nat (S (S n))) with (Z.of_nat n + 2) by lia. apply qsum_ext. intros i Hi.
  transitivity (qsum 0 (Z.of_nat n + 1) (fun j => (fun k => pair_term n A i k) (skip i j))).
  - cbn [laplace]. rewrite <- qsum_mul_l. replace (Z.of_nat (S n)) with (Z.of_nat n + 1) by lia. apply qsum_ext. intros j Hj.
    unfold pair_term. assert (NE : (skip i j =? i) = false) by (unfold skip; destruct (Z.ltb_spec j i); lia). rewrite NE.
    unfold minor at 1. cbn [Z.add].
    assert (ES : sgn (if skip i j <? i then skip i j else skip i j - 1) = sgn j).
    { f_equal. unfold skip. destruct (Z.ltb_spec j i).
      - destruct (Z.ltb_spec j i); lia.
      - destruct (Z.ltb_spec (j + 1) i); lia. }
    rewrite ES.
    rewrite (laplace_ext n (minor (minor A i) j) (fun r c => A (r + 2) (skip (Z.max i (skip i j)) (skip (Z.min i (skip i j)) c)))).
    + ring.
    + intros r c R C. unfold minor. replace (r + 1 + 1) with (r + 2) by lia. f_equal. unfold skip.
      destruct (Z.ltb_spec j i).
      * rewrite Z.max_l, Z.min_r by lia. reflexivity.
      * rewrite Z.max_r, Z.min_l by lia. destruct (Z.ltb_spec c j), (Z.ltb_spec c i);
        repeat match goal with |- context [?a <? ?b] => destruct (Z.ltb_spec a b); try lia end.
  - rewrite (qsum_skip_index (Z.of_nat n + 1) i (fun k => pair_term n A i k)) by lia.
    replace (Z.of_nat n + 1 + 1) with (Z.of_nat n + 2) by lia. apply qsum_ext. intros k Hk.
    destruct (Z.eqb_spec k i) as [->|]; auto. unfold pair_term. now rewrite Z.eqb_refl.
Qed.

Lemma pair_swap n A i k : pair_term n (fun r c => A (tau 0 1 r) c) i k = (- pair_term n A k i)%Qc.
Proof.
  unfold pair_term. rewrite (Z.eqb_sym i k). destruct (Z.eqb_spec k i); [ring|].
  rewrite (Z.max_comm k i), (Z.min_comm k i).
  rewrite (laplace_ext n (fun r c => A (tau 0 1 (r + 2)) (skip (Z.max i k) (skip (Z.min i k) c))) (fun r c => A (r + 2) (skip (Z.max i k) (skip (Z.min i k) c)))).
  2:{ intros r c R C. rewrite tau_fix by lia. auto. }
  change (tau 0 1 0) with 1. change (tau 0 1 1) with 0.
  destruct (Z.ltb_spec k i), (Z.ltb_spec i k); try lia.
  - replace (sgn i) with (- sgn (i - 1))%Qc by (rewrite <- sgn_succ; f_equal; lia). ring.
  - replace (sgn k) with (- sgn (k - 1))%Qc by (rewrite <- sgn_succ; f_equal; lia). ring.
Qed.

Lemma laplace_adjacent n : forall A r, 0 <= r -> r + 1 < Z.of_nat n -> laplace n (fun i j => A (tau r (r + 1) i) j) = (- laplace n A)%Qc.
Proof.
  induction n as [|n IH]; intros A r R0 R; [lia|]. destruct (Z.eq_dec r 0) as [->|N].
  - destruct n as [|n]; [lia|]. rewrite !laplace_two. rewrite qsum_swap.
    transitivity (qsum 0 (Z.of_nat n + 2) (fun i => - (1) * qsum 0 (Z.of_nat n + 2) (fun k => pair_term n A i k))%Qc).
    + apply qsum_ext. intros i Hi. rewrite <- qsum_mul_l. apply qsum_ext. intros k Hk. change (0 + 1) with 1. rewrite pair_swap. ring.
    + rewrite qsum_mul_l. ring.
  - cbn [laplace]. transitivity (qsum 0 (Z.of_nat (S n)) (fun i => - (1) * (sgn i * A 0%Z i * laplace n (minor A i)))%Qc).
    + apply qsum_ext. intros i Hi. rewrite (laplace_ext n _ (fun a b => minor A i (tau (r - 1) (r - 1 + 1) a) b)).
      * rewrite IH by lia. rewrite tau_fix by lia. ring.
      * intros a b Ha Hb. unfold minor. f_equal. unfold tau.
        destruct (Z.eqb_spec (a + 1) r), (Z.eqb_spec (a + 1) (r + 1)), (Z.eqb_spec a (r - 1)), (Z.eqb_spec a (r - 1 + 1)); lia.
    + rewrite qsum_mul_l. ring.
Qed.

Lemma self_opposite (q : Qc) : q = (- q)%Qc -> q = 0%Qc.
Proof.
  intros H. assert (E : (Q2Qc 2 * q = 0)%Qc). { replace (Q2Qc 2) with (1 + 1)%Qc by (apply Qc_is_canon; reflexivity). rewrite Qcmult_plus_distr_l, Qcmult_1_l. rewrite H at 1. ring. }
  apply Qcmult_integral in E as [E|E]; auto. discriminate E.
Qed.

Lemma laplace_same n A r s : 0 <= r < s -> s < Z.of_nat n -> (forall j, 0 <= j < Z.of_nat n -> A r j = A s j) -> laplace n A = 0%Qc.
Proof.
  intros R S. revert A. assert (G : forall d, forall A, s = r + 1 + Z.of_nat d -> (forall j, 0 <= j < Z.of_nat n -> A r j = A s j) -> laplace n A = 0%Qc).
  2:{ intros A. apply (G (Z.to_nat (s - r - 1))). lia. }
  intros d. revert s R S. induction d as [|d IH]; intros s R S A E H.
  - apply self_opposite. rewrite <- (laplace_adjacent n A r) by lia. apply laplace_ext. intros i j I J.
    unfold tau. destruct (Z.eqb_spec i r) as [->|]; [rewrite H by auto; f_equal; lia|].
    destruct (Z.eqb_spec i (r + 1)) as [->|]; auto. rewrite H by auto. f_equal. lia.
  - assert (Q : laplace n (fun i j => A (tau (s - 1) (s - 1 + 1) i) j) = 0%Qc).
    { apply (IH (s - 1)); try lia. intros j J. rewrite tau_fix by lia. rewrite H by auto. f_equal. unfold tau. rewrite Z.eqb_refl. lia. }
    rewrite laplace_adjacent in Q by lia. rewrite <- (Qcopp_involutive (laplace n A)), Q. reflexivity.
Qed.

Lemma laplace_alternating n : alternating (Z.of_nat n) (laplace n).
Proof.
  split.
  - apply laplace_ext.
  - apply laplace_plus.
  - intros. now apply laplace_scale.
  - intros A r s R S N H. destruct (Z_lt_le_dec r s).
    + apply (laplace_same n A r s); auto; lia.
    + apply (laplace_same n A s r); try lia. intros j J. symmetry. auto.
Qed.

Lemma laplace_ident n : laplace n ident = 1%Qc.
Proof.
  induction n as [|n IH]; [reflexivity|]. cbn [laplace]. rewrite (qsum_one 0 (Z.of_nat (S n)) 0).
  - rewrite (laplace_ext n _ ident), IH. { reflexivity. }
    intros r c R C. unfold minor, skip, ident. destruct (Z.ltb_spec c 0); [lia|]. destruct (Z.eqb_spec (r + 1) (c + 1)), (Z.eqb_spec r c); auto; lia.
  - lia.
  - intros i Hi NE. unfold ident. destruct (Z.eqb_spec 0 i); [lia|]. ring.
Qed.

(** ** Any alternating function is a multiple of the expansion *)
Lemma decomposed_alt n A B pm e f : 0 <= n -> alternating n f -> decomposed n n A B pm -> reached n pm e ->
  f A = (e * (diag_prod (upper B) (Z.to_nat n) * f ident))%Qc.
Proof.
  intros N F D R. pose proof (reached_alt n f A pm e F R) as E. pose proof (reached_sign n pm e R) as S.
  assert (Q : f A = (e * f (fun i j => A (pm i) j))%Qc) by (rewrite E, Qcmult_assoc, S; ring).
  rewrite Q. f_equal. rewrite <- (alt_upper n f F (upper B)); auto.
  - apply (alt_lower n f F _ _ B). intros i j I J. rewrite (proj1 D) by auto. unfold rest. destruct (Z.leb_spec n i); [lia|]. cbn [andb].
    rewrite Qcplus_0_r. now rewrite (unit_row n B (fun l => upper B l j)) by auto.
  - intros i j J I. unfold upper. destruct (Z.leb_spec i j); [lia|auto].
Qed.

Definition transpose_of (n : Z) (m : matrix) : matrix := Img n n (fun x y => entry m x y).
Lemma alt_multiple n m f : 0 <= n -> is_matrix n n m -> alternating n f ->
  (regular n (entry m) /\ exists q, q <> 0%Qc /\ f (entry m) = (q * f ident)%Qc /\ laplace (Z.to_nat n) (entry m) = q) \/
  (~ regular n (entry m) /\ f (entry m) = 0%Qc /\ laplace (Z.to_nat n) (entry m) = 0%Qc).
Proof.
  intros N M F. pose proof (laplace_alternating (Z.to_nat n)) as L. rewrite Z2Nat.id in L by auto.
  destruct (lu_ok n m N M) as [([buf pm] & _ & MB & V & P & D & e & R)|(_ & x & s & S & X & SX)].
  - left. cbn [fst snd] in *. split; [now apply (decomposed_regular n _ (entry buf) (vat pm))|].
    exists (e * diag_prod (upper (entry buf)) (Z.to_nat n))%Qc. split; [|split].
    + intros Q. apply Qcmult_integral in Q as [Q|Q].
      * pose proof (reached_sign n _ e R) as S. rewrite Q in S. discriminate S.
      * assert (G : forall c, Z.of_nat c <= n -> diag_prod (upper (entry buf)) c <> 0%Qc).
        { induction c as [|c IH]; intros Hc; cbn [diag_prod]; [discriminate|]. intros Z. apply Qcmult_integral in Z as [Z|Z].
          - unfold upper in Z. rewrite Z.leb_refl in Z. revert Z. apply D. lia.
          - apply IH; auto. lia. }
        apply (G (Z.to_nat n)); auto; lia.
    + rewrite (decomposed_alt n _ _ _ e f N F D R). ring.
    + rewrite (decomposed_alt n _ _ _ e _ N L D R), laplace_ident. ring.
  - right. assert (NR : ~ regular n (entry m)) by (intros R; specialize (R x SX s S); rewrite X in R; discriminate R).
    split; auto.
    assert (T : is_matrix n n (transpose_of n m)) by (split; reflexivity).
    destruct (inverse_ok n (transpose_of n m) N T) as [(y & _ & _ & _ & P1 & P2)|(_ & y & t & Ht & Y & SY)].
    + exfalso. apply NR. intros v Sv i I.
      (* y^T m = 1 *)
      assert (E : qsum 0 n (fun k => entry y k i * times n (entry m) v k)%Qc = v i).
      { unfold times. rewrite (qsum_ext 0 n _ (fun k => qsum 0 n (fun j => entry m k j * entry y k i * v j)%Qc)).
        - rewrite qsum_swap. rewrite (qsum_ext 0 n _ (fun j => ident j i * v j)%Qc).
          + rewrite (qsum_one 0 n i); [unfold ident; rewrite Z.eqb_refl; ring|auto|].
            intros k Hk NE. unfold ident. destruct (Z.eqb_spec k i); [lia|ring].
          + intros j Hj. rewrite <- (P1 j i) by auto. rewrite <- qsum_mul_r. apply qsum_ext. auto.
        - intros k Hk. rewrite <- qsum_mul_l. apply qsum_ext. intros. ring. }
      rewrite <- E. apply qsum_zero. intros k Hk. rewrite (Sv k) by auto. ring.
    + assert (K : forall j, 0 <= j < n -> qsum 0 n (fun i => y i * entry m i j)%Qc = 0%Qc).
      { intros j J. rewrite <- (SY j J). unfold times. apply qsum_ext. intros i I. unfold transpose_of, entry. cbn [pix]. ring. }
      split.
      * apply (alt_dependent n f F _ y t); auto.
      * apply (alt_dependent n _ L _ y t); auto.
Qed.

(** ** The stack of minors *)
Lemma block_ok n d r1 c1 a r0 c0 r c N : is_matrix n n d -> is_matrix N N a -> 0 <= r1 -> 0 <= c1 -> 0 <= r0 -> 0 <= c0 ->
  0 <= r -> 0 <= c -> r1 + r <= n -> c1 + c <= n -> r0 + r <= N -> c0 + c <= N ->
  exists d', copy_block d r1 c1 a r0 c0 r c = Ok d' /\ is_matrix n n d' /\ forall i j, 0 <= i < n -> 0 <= j < n ->
    entry d' i j = if (r1 <=? i) && (i <? r1 + r) && (c1 <=? j) && (j <? c1 + c) then entry a (r0 + (i - r1)) (c0 + (j - c1)) else entry d i j.
Proof.
  intros MD MA R1 C1 R0 C0 R C H1 H2 H3 H4. unfold copy_block.
  match goal with |- context [for_up 0 r ?g d] =>
    destruct (for_up_inv (fun k u => is_matrix n n u /\ forall i j, 0 <= i < n -> 0 <= j < n ->
      entry u i j = if (r1 <=? i) && (i <? r1 + k) && (c1 <=? j) && (j <? c1 + c) then entry a (r0 + (i - r1)) (c0 + (j - c1)) else entry d i j) g 0 r d) as (u & E & Mu & Pu) end; [lia| | |].
  - split; auto. intros i j I J. destruct (Z.leb_spec r1 i), (Z.ltb_spec i (r1 + 0)); cbn [andb]; auto; lia.
  - intros k u Hk (Mu & Pu).
    match goal with |- context [for_up 0 c ?g u] =>
      destruct (for_up_inv (fun l v => is_matrix n n v /\ forall i j, 0 <= i < n -> 0 <= j < n ->
        entry v i j = if (i =? r1 + k) && (c1 <=? j) && (j <? c1 + l) then entry a (r0 + k) (c0 + (j - c1)) else entry u i j) g 0 c u) as (v & E & Mv & Pv) end; [lia| | |].
    + split; auto. intros i j I J. destruct (i =? r1 + k), (Z.leb_spec c1 j), (Z.ltb_spec j (c1 + 0)); cbn [andb]; auto; lia.
    + intros l v Hl (Mv & Pv). rewrite (mget_ok N N) by (auto; lia). cbn [bind].
      destruct (mset_ok n n v (r1 + k) (c1 + l) (entry a (r0 + k) (c0 + l)) Mv) as (w & Ew & Mw & Pw); [lia|lia|]. exists w. split; auto. split; auto.
      intros i j I J. rewrite Pw, Pv by auto.
      destruct (Z.eqb_spec i (r1 + k)), (Z.eqb_spec j (c1 + l)), (Z.leb_spec c1 j), (Z.ltb_spec j (c1 + l)), (Z.ltb_spec j (c1 + (l + 1))); cbn [andb]; try lia; auto.
      f_equal. lia.
    + exists v. split; auto. split; auto. intros i j I J. rewrite Pv, Pu by auto.
      destruct (Z.eqb_spec i (r1 + k)), (Z.leb_spec c1 j), (Z.ltb_spec j (c1 + c)), (Z.leb_spec r1 i), (Z.ltb_spec i (r1 + k)), (Z.ltb_spec i (r1 + (k + 1))); cbn [andb]; try lia; auto.
      f_equal. lia.
  - exists u. auto.
Qed.

Lemma submatrix_ok a r0 c0 n N : is_matrix N N a -> 0 <= r0 -> 0 <= c0 -> 0 <= n -> r0 + n <= N -> c0 + n <= N ->
  exists d, submatrix a r0 c0 n n = Ok d /\ is_matrix n n d /\ forall i j, 0 <= i < n -> 0 <= j < n -> entry d i j = entry a (r0 + i) (c0 + j).
Proof.
  intros MA R0 C0 Hn H3 H4.
  destruct (block_ok n (zeros n n) 0 0 a r0 c0 n n N) as (d & E & Md & P); auto; try lia; [split; reflexivity|].
  exists d. split; [exact E|]. split; auto. intros i j I J. rewrite P by auto.
  destruct (Z.leb_spec 0 i), (Z.ltb_spec i (0 + n)), (Z.leb_spec 0 j), (Z.ltb_spec j (0 + n)); cbn [andb]; try lia. f_equal; lia.
Qed.

(* what a list of scaled matrices adds up to *)
Definition stack_sum (n : nat) (l : list (matrix * Qc)) : Qc := fold_right (fun p s => (snd p * laplace n (entry (fst p)) + s)%Qc) 0%Qc l.

Lemma push_ok a scale s n : 3 <= n -> is_matrix n n a ->
  exists l, push_minors a scale s = Ok (l ++ s) /\ length l = Z.to_nat n /\ Forall (fun p => is_matrix (n - 1) (n - 1) (fst p)) l /\
    stack_sum (Z.to_nat (n - 1)) l = (scale * laplace (Z.to_nat n) (entry a))%Qc.
Proof.
  intros N M. unfold push_minors. assert (Mr : mrows a = n) by apply M. rewrite Mr. cbn zeta.
  set (k := Z.to_nat (n - 1)).
  assert (Sn : Z.to_nat n = S k) by (unfold k; lia). rewrite Sn. cbn [laplace]. replace (Z.of_nat (S k)) with n by lia.
  assert (EX : forall d i, eq_on (n - 1) (entry d) (minor (entry a) i) -> laplace k (entry d) = laplace k (minor (entry a) i)).
  { intros d i H. apply laplace_ext. now replace (Z.of_nat k) with (n - 1) by lia. }
  destruct (submatrix_ok a 1 1 (n - 1) n M) as (d & -> & Md & Pd); try lia. cbn [bind].
  rewrite (mget_ok n n) by (auto; lia). cbn [bind].
  match goal with |- context [for_up 1 (n - 1) ?g ?z] =>
    destruct (for_up_inv (fun i t => let '(sub, sc, st) := t in is_matrix (n - 1) (n - 1) sub /\ sc = (scale * sgn i)%Qc /\
       exists l, st = l ++ s /\ length l = Z.to_nat i /\ Forall (fun p => is_matrix (n - 1) (n - 1) (fst p)) l /\
         stack_sum k l = (scale * qsum 0 i (fun i => sgn i * entry a 0%Z i * laplace k (minor (entry a) i)))%Qc) g 1 (n - 1) z) as ([[sub sc] st] & -> & Ms & -> & l & -> & Ll & Fl & Sl) end; [lia| | |].
  - split; auto. split; [reflexivity|]. exists ((d, (scale * entry a 0%Z 0%Z)%Qc) :: nil). split; auto. split; auto. split; [constructor; auto|].
    unfold stack_sum. cbn [fold_right fst snd]. rewrite qsum_cons, qsum_nil by lia. rewrite (EX d 0).
    + change (sgn 0) with 1%Qc. ring.
    + intros i j I J. rewrite Pd by auto. unfold minor, skip. destruct (Z.ltb_spec j 0); [lia|]. f_equal; lia.
  - intros i [[sub sc] st] Hi (Ms & -> & l & -> & Ll & Fl & Sl).
    destruct (block_ok (n - 1) sub 0 0 a 1 0 (n - 1) i n) as (d1 & -> & M1 & P1); auto; try lia. cbn [bind].
    destruct (block_ok (n - 1) d1 0 i a 1 (i + 1) (n - 1) (n - i - 1) n) as (d2 & -> & M2 & P2); auto; try lia. cbn [bind].
    rewrite (mget_ok n n) by (auto; lia). cbn [bind]. eexists. split; [reflexivity|]. split; auto. split; [rewrite sgn_succ; ring|].
    exists ((d2, (scale * sgn i * entry a 0%Z i)%Qc) :: l). split; auto. split; [cbn [length]; lia|]. split; [constructor; auto|].
    unfold stack_sum in *. cbn [fold_right fst snd]. rewrite Sl, qsum_snoc by lia. rewrite (EX d2 i); [ring|].
    intros r c R C. rewrite P2, P1 by auto. unfold minor, skip.
    destruct (Z.leb_spec 0 r), (Z.ltb_spec r (0 + (n - 1))), (Z.leb_spec i c), (Z.ltb_spec c (i + (n - i - 1))), (Z.leb_spec 0 c), (Z.ltb_spec c (0 + i)), (Z.ltb_spec c i);
      cbn [andb]; try lia; f_equal; lia.
  - cbn [bind]. destruct (submatrix_ok a 1 0 (n - 1) n M) as (e & -> & Me & Pe); try lia. cbn [bind].
    rewrite (mget_ok n n) by (auto; lia). cbn [bind].
    exists ((e, (scale * sgn (n - 1) * entry a 0%Z (n - 1))%Qc) :: l). split; auto. split; [cbn [length]; lia|]. split; [constructor; auto|].
    unfold stack_sum in *. cbn [fold_right fst snd]. rewrite Sl. rewrite (EX e (n - 1)).
    + rewrite (qsum_app 0 (n - 1) n), (qsum_cons (n - 1) n), (qsum_nil (n - 1 + 1) n) by lia. ring.
    + intros i j I J. rewrite Pe by auto. unfold minor, skip. destruct (Z.ltb_spec j (n - 1)); [|lia]. f_equal; lia.
Qed.

Fixpoint rounds (n : nat) : nat := match n with O => 1 | S k => S (S k * rounds k) end.
Lemma det_loop_ok n : forall m scale s r fuel, is_matrix (Z.of_nat n) (Z.of_nat n) m ->
  exists used, (used <= rounds n)%nat /\
  det_loop (used + fuel) ((m, scale) :: s) r = det_loop fuel s (r + (if Nat.eqb n 0 then 0 else scale * laplace n (entry m)))%Qc.
Proof.
  induction n as [|n IH]; intros m scale s r fuel M.
  - exists 1%nat. split; [cbn; lia|]. cbn [Nat.add det_loop]. destruct M as [-> ->]. cbn. rewrite Qcplus_0_r. reflexivity.
  - assert (Mr : mrows m = Z.of_nat (S n)) by apply M. assert (Mc : mcols m = Z.of_nat (S n)) by apply M.
    destruct n as [|[|n]].
    + exists 1%nat. split; [cbn; lia|]. cbn [Nat.add det_loop]. rewrite Mr, Mc. cbn [Z.of_nat Z.eqb negb Pos.of_succ_nat Pos.eqb Pos.succ].
      rewrite (mget_ok 1 1) by (auto; lia). cbn [bind Nat.eqb]. f_equal. f_equal. cbn [laplace]. change (Z.of_nat 1) with 1. rewrite qsum_cons, qsum_nil by lia.
      change (sgn 0) with 1%Qc. ring.
    + exists 1%nat. split; [cbn; lia|]. cbn [Nat.add det_loop]. rewrite Mr, Mc. cbn [Z.of_nat Z.eqb negb Pos.of_succ_nat Pos.eqb Pos.succ].
      rewrite !(mget_ok 2 2) by (auto; lia). cbn [bind Nat.eqb]. f_equal. f_equal. cbn [laplace].
      change (Z.of_nat 2) with 2. change (Z.of_nat 1) with 1.
      rewrite (qsum_cons 0 2), (qsum_cons (0 + 1) 2), (qsum_nil (0 + 1 + 1) 2) by lia. rewrite !(qsum_cons 0 1), !(qsum_nil (0 + 1) 1) by lia.
      unfold minor, skip. change (0 + 1) with 1. change (0 <? 0) with false. change (0 <? 1) with true. cbn iota.
      change (sgn 0) with 1%Qc. change (sgn 1) with (- (1))%Qc. ring.
    + destruct (push_ok m scale s (Z.of_nat (S (S (S n))))) as (l & E & Ll & Fl & Sl); [lia|auto|].
      rewrite Nat2Z.id in Ll, Sl. replace (Z.to_nat (Z.of_nat (S (S (S n))) - 1)) with (S (S n)) in Sl by lia.
      replace (Z.of_nat (S (S (S n))) - 1) with (Z.of_nat (S (S n))) in Fl by lia.
      set (k := S (S n)) in *.
      assert (G : forall l s r, Forall (fun p => is_matrix (Z.of_nat k) (Z.of_nat k) (fst p)) l ->
        exists used, (used <= length l * rounds k)%nat /\ det_loop (used + fuel) (l ++ s) r = det_loop fuel s (r + stack_sum k l)%Qc).
      { clear l E Ll Fl Sl s r. induction l as [|[a q] l IHl]; intros s r F; cbn [length app].
        - exists O. split; [lia|]. cbn [Nat.add]. unfold stack_sum. cbn [fold_right]. rewrite Qcplus_0_r. reflexivity.
        - apply Forall_cons_iff in F as [Fa Fl]. cbn [fst] in Fa.
          destruct (IHl s (r + q * laplace k (entry a))%Qc Fl) as (u & U & E).
          destruct (IH a q (l ++ s) r (u + fuel)%nat Fa) as (v & V & E').
          exists (v + u)%nat. split; [lia|]. rewrite <- Nat.add_assoc, E'. cbn [Nat.eqb k]. change (Nat.eqb k 0) with false. cbn iota. rewrite E. f_equal.
          unfold stack_sum. cbn [fold_right fst snd]. ring. }
      destruct (G l s r Fl) as (u & U & EG). exists (S u). split; [rewrite Ll in U; apply le_n_S; exact U|].
      cbn [Nat.add det_loop]. rewrite Mr, Mc.
      assert (Q0 : (Z.of_nat (S k) =? 0) = false) by (apply Z.eqb_neq; unfold k; lia).
      assert (Q1 : (Z.of_nat (S k) =? 1) = false) by (apply Z.eqb_neq; unfold k; lia).
      assert (Q2 : (Z.of_nat (S k) =? 2) = false) by (apply Z.eqb_neq; unfold k; lia).
      rewrite Z.eqb_refl, Q0, Q1, Q2. cbn [negb]. rewrite E. cbn [bind]. rewrite EG. cbn [Nat.eqb]. f_equal. now rewrite Sl.
Qed.

Lemma fuel_more : forall f s r q, det_loop f s r = Ok q -> forall g, (f <= g)%nat -> det_loop g s r = Ok q.
Proof.
  induction f as [|f IH]; intros s r q H g G.
  - destruct s as [|[a sc] s]; [|discriminate H]. destruct g; auto.
  - destruct g as [|g]; [lia|]. destruct s as [|[a sc] s]; [auto|]. cbn [det_loop] in *.
    destruct (negb _); [discriminate H|]. destruct (mrows a =? 0); [apply (IH _ _ _ H); lia|].
    destruct (mrows a =? 1).
    { destruct (mget a 0 0); try discriminate H. cbn [bind] in *. apply (IH _ _ _ H). lia. }
    destruct (mrows a =? 2).
    { destruct (mget a 0 0), (mget a 1 1), (mget a 0 1), (mget a 1 0); cbn [bind] in *; try discriminate H. apply (IH _ _ _ H). lia. }
    destruct (push_minors a sc s); cbn [bind] in *; try discriminate H. apply (IH _ _ _ H). lia.
Qed.

Lemma det_ok n m f : 0 < n -> is_matrix n n m -> (rounds (Z.to_nat n) <= f)%nat -> det f m = Ok (laplace (Z.to_nat n) (entry m)).
Proof.
  intros N M F. unfold det. destruct M as [Mr Mc]. rewrite Mr, Mc, Z.eqb_refl. cbn [negb].
  destruct (det_loop_ok (Z.to_nat n) m 1%Qc [] 0%Qc 0) as (u & U & E); [rewrite Z2Nat.id by lia; split; auto|].
  apply (fuel_more u); [|lia]. rewrite Nat.add_0_r in E. rewrite E. cbn [det_loop].
  destruct (Nat.eqb_spec (Z.to_nat n) 0); [lia|]. f_equal. ring.
Qed.
