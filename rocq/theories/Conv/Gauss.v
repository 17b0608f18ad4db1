(* The Gaussian kernel. *)
From Coq Require Import ZArith List Lia Bool QArith Qcanon Field.
From Verif Require Import Lib.Base Lib.Img Lib.QSum BBox.Box2 Edge.Model Conv.Model Conv.Spec Conv.Proofs.
Import ListNotations.
Local Open Scope Z_scope.

Lemma of_int_add a b : of_int (a + b) = (of_int a + of_int b)%Qc.
Proof. apply Qc_is_canon. unfold of_int, Qcplus. cbn [this Q2Qc]. rewrite !Qred_correct, inject_Z_plus. reflexivity. Qed.
Lemma of_int_mul a b : of_int (a * b) = (of_int a * of_int b)%Qc.
Proof. apply Qc_is_canon. unfold of_int, Qcmult. cbn [this Q2Qc]. rewrite !Qred_correct, inject_Z_mult. reflexivity. Qed.
Lemma of_int_opp a : of_int (- a) = (- of_int a)%Qc.
Proof. apply Qc_is_canon. unfold of_int, Qcopp. cbn [this Q2Qc]. rewrite !Qred_correct, inject_Z_opp. reflexivity. Qed.
Lemma of_int_sub a b : of_int (a - b) = (of_int a - of_int b)%Qc.
Proof. unfold Z.sub. rewrite of_int_add, of_int_opp. reflexivity. Qed.
Lemma of_int_0 : of_int 0 = 0%Qc. Proof. reflexivity. Qed.
Lemma of_int_1 : of_int 1 = 1%Qc. Proof. reflexivity. Qed.
Lemma of_int_lt a b : a < b -> (of_int a < of_int b)%Qc.
Proof. intros. unfold Qclt, of_int. cbn [this Q2Qc]. rewrite !Qred_correct. now rewrite <- Zlt_Qlt. Qed.
Lemma of_int_inj a b : of_int a = of_int b -> a = b.
Proof. intros E. destruct (Z.lt_trichotomy a b) as [L|[L|L]]; auto; apply of_int_lt in L; rewrite E in L; exfalso; now apply (Qclt_not_eq _ _ L). Qed.

(* i as a rational, less half of n *)
Definition pos (n i : Z) : Qc := (of_int i - of_int n / of_int 2)%Qc.
Lemma two_nz : of_int 2 <> 0%Qc.
Proof. intros E. change 0%Qc with (of_int 0) in E. apply of_int_inj in E. lia. Qed.
Lemma half_two : (Q2Qc (1 # 2) * of_int 2 = 1)%Qc.
Proof. apply Qc_is_canon. reflexivity. Qed.
Lemma half_eq : Q2Qc (1 # 2) = (1 / of_int 2)%Qc.
Proof. pose proof two_nz. rewrite <- half_two. field. auto. Qed.

Lemma upd_length l n q : length (upd l n q) = length l.
Proof. revert n. induction l; destruct n; cbn; auto. Qed.
Lemma upd_nth l n q j : (n < length l)%nat -> nth j (upd l n q) 0%Qc = if Nat.eqb j n then q else nth j l 0%Qc.
Proof. revert n j. induction l as [|a l IH]; intros [|n] [|j] H; cbn in *; try lia; auto. apply IH. lia. Qed.
Lemma vwrite_ok k i q : 0 <= i < size k -> exists k', vwrite k i q = Ok k' /\ size k' = size k /\
  forall j, 0 <= j -> nth (Z.to_nat j) k' 0%Qc = if j =? i then q else nth (Z.to_nat j) k 0%Qc.
Proof.
  intros I. unfold vwrite. destruct (Z.ltb_spec i 0), (Z.leb_spec (size k) i); try lia. cbn [orb].
  eexists. split; [reflexivity|]. unfold size in *. split; [now rewrite upd_length|].
  intros j J. rewrite upd_nth by lia. destruct (Nat.eqb_spec (Z.to_nat j) (Z.to_nat i)), (Z.eqb_spec j i); auto; lia.
Qed.

Section Erf.
Variable e : Qc -> Qc.
Hypothesis odd : forall x, e (- x)%Qc = (- e x)%Qc.
Hypothesis incr : forall x y, (x < y)%Qc -> (e x < e y)%Qc.

Definition tap_at (n i : Z) : Qc := (e (pos n (i + 1)) - e (pos n i))%Qc.

Lemma pos_opp n i : pos n (n - i) = (- pos n i)%Qc.
Proof.
  unfold pos. rewrite of_int_sub. transitivity (of_int n - of_int i - of_int n * (1 / of_int 2))%Qc; [unfold Qcdiv; ring|].
  rewrite <- half_eq. transitivity (of_int n * (Q2Qc (1 # 2) * of_int 2) - of_int i - of_int n * Q2Qc (1 # 2))%Qc; [rewrite half_two; ring|].
  unfold Qcdiv. replace (/ of_int 2)%Qc with (Q2Qc (1 # 2)) by (rewrite half_eq; unfold Qcdiv; ring).
  change (of_int 2) with (of_int (1 + 1)). rewrite of_int_add, of_int_1. ring.
Qed.
Lemma tap_sym n i : tap_at n (n - 1 - i) = tap_at n i.
Proof.
  unfold tap_at. replace (n - 1 - i + 1) with (n - i) by lia. replace (n - 1 - i) with (n - (i + 1)) by lia.
  rewrite !pos_opp, !odd. ring.
Qed.
Lemma tap_pos n i : (0 < tap_at n i)%Qc.
Proof.
  unfold tap_at.
  apply -> Qclt_minus_iff. apply incr. unfold pos. rewrite of_int_add. apply Qclt_minus_iff.
  replace (of_int i + of_int 1 - of_int n / of_int 2 + - (of_int i - of_int n / of_int 2))%Qc with (of_int 1) by ring.
  now apply (of_int_lt 0 1).
Qed.

Lemma div_half q : (q / of_int 2 = q * Q2Qc (1 # 2))%Qc.
Proof. rewrite half_eq. unfold Qcdiv. ring. Qed.
Lemma pos_even c i : pos (2 * c) (c + i) = of_int i.
Proof.
  unfold pos. rewrite of_int_add, of_int_mul, div_half. transitivity (of_int c + of_int i - of_int c * (Q2Qc (1 # 2) * of_int 2))%Qc; [ring|]. rewrite half_two. ring.
Qed.
Lemma pos_odd c i : pos (2 * c + 1) (c + i) = (of_int i - Q2Qc (1 # 2))%Qc.
Proof.
  unfold pos. rewrite !of_int_add, of_int_mul, div_half, of_int_1.
  transitivity (of_int c + of_int i - of_int c * (Q2Qc (1 # 2) * of_int 2) - Q2Qc (1 # 2))%Qc; [ring|]. rewrite half_two. ring.
Qed.
Lemma pos_odd' c i : pos (2 * c + 1) (c + i + 1) = (of_int i + Q2Qc (1 # 2))%Qc.
Proof.
  replace (c + i + 1) with (c + (i + 1)) by lia. rewrite pos_odd, of_int_add, of_int_1.
  transitivity (of_int i + (1 - Q2Qc (1 # 2)))%Qc; [ring|]. f_equal.
Qed.

Lemma telescope n a b : a <= b -> qsum a b (fun i => tap_at n i) = (e (pos n b) - e (pos n a))%Qc.
Proof.
  intros L. replace b with (a + Z.of_nat (Z.to_nat (b - a))) by lia. induction (Z.to_nat (b - a)) as [|d IH].
  - rewrite Z.add_0_r, qsum_nil by lia. ring.
  - replace (a + Z.of_nat (S d)) with (a + Z.of_nat d + 1) by lia. rewrite qsum_snoc, IH by lia. unfold tap_at. ring.
Qed.

(* the sum of the right half and its mirror image *)
Lemma total n c a : n = 2 * c + a -> 0 <= c -> a = 0 \/ a = 1 ->
  (qsum a (c + a) (fun i => tap_at n (c + i)) * of_int 2 + (if a =? 0 then 0 else tap_at n c) = qsum 0 n (fun i => tap_at n i))%Qc.
Proof.
  intros E C A.
  assert (S1 : qsum a (c + a) (fun i => tap_at n (c + i)) = qsum (c + a) n (fun i => tap_at n i)).
  { transitivity (qsum (a + c) (c + a + c) (fun i => tap_at n i)).
    - rewrite (qsum_shift a (c + a) c). apply qsum_ext. intros i Hi. f_equal. lia.
    - f_equal; lia. }
  assert (S2 : qsum 0 c (fun i => tap_at n i) = qsum (c + a) n (fun i => tap_at n i)).
  { transitivity (qsum (0 + (c + a)) (c + (c + a)) (fun i => tap_at n i)).
    - rewrite qsum_rev by lia. rewrite (qsum_shift 0 c (c + a)). apply qsum_ext. intros i Hi. rewrite <- (tap_sym n). f_equal. lia.
    - f_equal; lia. }
  rewrite (qsum_app 0 c n), (qsum_app c (c + a) n) by lia. rewrite S1, S2.
  change (of_int 2) with (of_int (1 + 1)). rewrite of_int_add, of_int_1.
  destruct A as [->| ->]; cbn [Z.eqb].
  - rewrite (qsum_nil c (c + 0)) by lia. ring.
  - rewrite (qsum_cons c (c + 1)), (qsum_nil (c + 1) (c + 1)) by lia. ring.
Qed.

Lemma total_pos n : 0 < n -> (0 < e (pos n n) - e (pos n 0))%Qc.
Proof.
  intros N. apply -> Qclt_minus_iff. apply incr. unfold pos. apply Qclt_minus_iff.
  replace (of_int n - of_int n / of_int 2 + - (of_int 0 - of_int n / of_int 2))%Qc with (of_int n) by (rewrite of_int_0; ring).
  now apply (of_int_lt 0 n).
Qed.

Lemma nth_map_q (f : Qc -> Qc) k j : (j < length k)%nat -> nth j (map f k) 0%Qc = f (nth j k 0%Qc).
Proof. intros H. rewrite (nth_indep _ 0%Qc (f 0%Qc)) by (now rewrite map_length). apply map_nth. Qed.

Definition gauss_size (s7 sz : Z) : Z := if sz =? 0 then compute_kernel_size s7 else sz.
Lemma gaussian_ok s7 sz : 0 <= gauss_size s7 sz ->
  exists k, gaussian_kernel e false s7 sz = Ok k /\ size k = gauss_size s7 sz /\
    forall i, 0 <= i < gauss_size s7 sz ->
      nth (Z.to_nat i) k 0%Qc = (tap_at (gauss_size s7 sz) i / (e (pos (gauss_size s7 sz) (gauss_size s7 sz)) - e (pos (gauss_size s7 sz) 0)))%Qc.
Proof.
  unfold gaussian_kernel. cbn zeta. fold (gauss_size s7 sz). set (n := gauss_size s7 sz). intros N.
  destruct (Z.ltb_spec n 0); [lia|]. set (c := Z.quot n 2). set (k0 := repeat 0%Qc (Z.to_nat n)).
  assert (Sz : size k0 = n) by (unfold size, k0; rewrite repeat_length; lia).
  pose proof (Z.quot_rem' n 2) as Q. fold c in Q. pose proof (Z.rem_bound_pos n 2 N ltac:(lia)) as Rm.
  assert (G : exists k sum,
    (if Z.rem n 2 =? 0 then
           '(k, sum) <- for_up 0 c (fun i '(k, sum) =>
             let tap := (e (of_int i + of_int 1) - e (of_int i))%Qc in
             k <- vwrite k (c - i - 1) tap ;;
             k <- vwrite k (c + i) tap ;;
             Ok (k, (sum + tap)%Qc)) (k0, 0%Qc) ;;
           Ok (k, (sum * of_int 2)%Qc)
         else
           '(k, sum) <- for_up 1 (c + 1) (fun i '(k, sum) =>
             let tap := (e (of_int i + Q2Qc (1 # 2)) - e (of_int i - Q2Qc (1 # 2)))%Qc in
             k <- vwrite k (c - i) tap ;;
             k <- vwrite k (c + i) tap ;;
             Ok (k, (sum + tap)%Qc)) (k0, 0%Qc) ;;
           let sum := (sum * of_int 2)%Qc in
           let tap := (e (Q2Qc (1 # 2)) - e (- Q2Qc (1 # 2)))%Qc in
           k <- vwrite k c tap ;;
           Ok (k, (sum + tap)%Qc)) = Ok (k, sum) /\ size k = n /\ sum = qsum 0 n (fun i => tap_at n i) /\
    forall i, 0 <= i < n -> nth (Z.to_nat i) k 0%Qc = tap_at n i).
  { destruct (Z.eqb_spec (Z.rem n 2) 0) as [R0|R0].
    - assert (En : n = 2 * c) by lia.
      match goal with |- context [for_up 0 c ?g ?z] =>
        destruct (for_up_inv (fun i t => let '(k, sum) := t in size k = n /\ sum = qsum 0 i (fun i => tap_at n (c + i)) /\
          forall j, c - i <= j < c + i -> nth (Z.to_nat j) k 0%Qc = tap_at n j) g 0 c z) as ([k sum] & -> & Sk & Es & P) end; [lia| | |].
      + split; auto. split; [now rewrite qsum_nil by lia|]. intros. lia.
      + intros i [k sum] Hi (Sk & -> & P). cbn zeta.
        assert (Et : (e (of_int i + of_int 1) - e (of_int i))%Qc = tap_at n (c + i)).
        { unfold tap_at. rewrite En. replace (c + i + 1) with (c + (i + 1)) by lia. rewrite !pos_even, of_int_add. auto. }
        rewrite Et.
        destruct (vwrite_ok k (c - i - 1) (tap_at n (c + i))) as (k1 & -> & S1 & P1); [lia|]. cbn [bind].
        destruct (vwrite_ok k1 (c + i) (tap_at n (c + i))) as (k2 & -> & S2 & P2); [lia|]. cbn [bind].
        eexists. split; [reflexivity|]. split; [lia|]. split; [now rewrite qsum_snoc by lia|].
        intros j Hj. rewrite P2, P1 by lia. destruct (Z.eqb_spec j (c + i)) as [->|]; auto.
        destruct (Z.eqb_spec j (c - i - 1)) as [->|].
        * rewrite <- tap_sym. f_equal. lia.
        * apply P. lia.
      + cbn [bind]. do 2 eexists. split; [reflexivity|]. split; auto. split.
        * rewrite Es. rewrite <- (total n c 0) by lia. rewrite Z.add_0_r. cbn [Z.eqb]. ring.
        * intros i Hi. apply P. lia.
    - assert (En : n = 2 * c + 1) by lia.
      match goal with |- context [for_up 1 (c + 1) ?g ?z] =>
        destruct (for_up_inv (fun i t => let '(k, sum) := t in size k = n /\ sum = qsum 1 i (fun i => tap_at n (c + i)) /\
          forall j, c - i < j < c + i -> j <> c -> nth (Z.to_nat j) k 0%Qc = tap_at n j) g 1 (c + 1) z) as ([k sum] & -> & Sk & Es & P) end; [lia| | |].
      + split; auto. split; [now rewrite qsum_nil by lia|]. intros. lia.
      + intros i [k sum] Hi (Sk & -> & P). cbn zeta.
        assert (Et : (e (of_int i + Q2Qc (1 # 2)) - e (of_int i - Q2Qc (1 # 2)))%Qc = tap_at n (c + i)).
        { unfold tap_at. rewrite En, pos_odd, pos_odd'. auto. }
        rewrite Et.
        destruct (vwrite_ok k (c - i) (tap_at n (c + i))) as (k1 & -> & S1 & P1); [lia|]. cbn [bind].
        destruct (vwrite_ok k1 (c + i) (tap_at n (c + i))) as (k2 & -> & S2 & P2); [lia|]. cbn [bind].
        eexists. split; [reflexivity|]. split; [lia|]. split; [now rewrite qsum_snoc by lia|].
        intros j Hj NE. rewrite P2, P1 by lia. destruct (Z.eqb_spec j (c + i)) as [->|]; auto.
        destruct (Z.eqb_spec j (c - i)) as [->|].
        * rewrite <- tap_sym. f_equal. lia.
        * apply P; auto. lia.
      + cbn [bind]. cbn zeta.
        assert (Et : (e (Q2Qc (1 # 2)) - e (- Q2Qc (1 # 2)))%Qc = tap_at n c).
        { pose proof (pos_odd c 0) as A. pose proof (pos_odd' c 0) as B. rewrite Z.add_0_r, of_int_0, <- En in A, B.
          unfold tap_at. rewrite A, B. replace (0 - Q2Qc (1 # 2))%Qc with (- Q2Qc (1 # 2))%Qc by ring.
          now replace (0 + Q2Qc (1 # 2))%Qc with (Q2Qc (1 # 2)) by ring. }
        rewrite Et. destruct (vwrite_ok k c (tap_at n c)) as (k1 & -> & S1 & P1); [lia|]. cbn [bind].
        do 2 eexists. split; [reflexivity|]. split; [lia|]. split.
        * rewrite Es. rewrite <- (total n c 1) by lia. cbn [Z.eqb]. ring.
        * intros i Hi. rewrite P1 by lia. destruct (Z.eqb_spec i c) as [->|]; auto. apply P; lia. }
  destruct G as (k & sum & G & Sk & -> & P). cbn zeta in G. rewrite G. cbn [bind].
  eexists. split; [reflexivity|]. split; [unfold size; rewrite map_length; exact Sk|].
  intros i Hi. rewrite nth_map_q by (unfold size in Sk; lia). rewrite P, telescope by lia. unfold Qcdiv. ring.
Qed.
End Erf.
