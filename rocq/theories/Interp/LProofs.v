From Coq Require Import List ZArith QArith Qround Qabs Bool Lia Lqa Sorting.Sorted.
From Verif Require Import Lib.Base Lib.Lists Interp.Model Interp.Spec Interp.Poly.
Import ListNotations.
Open Scope Q_scope.

Lemma leqP a b : BoolSpec (a <= b) (b < a) (Qle_bool a b).
Proof.
  destruct (Qle_bool a b) eqn:E; constructor; [now apply Qle_bool_iff|].
  apply Qnot_le_lt. intros H. apply Qle_bool_iff in H. congruence.
Qed.
Lemma ltqP a b : BoolSpec (a < b) (b <= a) (ltq a b).
Proof. unfold ltq. destruct (leqP b a); constructor; auto. Qed.
Lemma eqqP a b : reflect (a == b) (Qeq_bool a b).
Proof. destruct (Qeq_bool a b) eqn:E; constructor; [now apply Qeq_bool_iff|]. intros H. apply Qeq_bool_iff in H. congruence. Qed.

Lemma get_ok {X} (l : list X) i d : (0 <= i < size l)%Z -> get l i = Ok (nth (Z.to_nat i) l d).
Proof.
  unfold size, get. intros H. destruct (Z.ltb_spec i 0); [lia|]. rewrite (nth_error_nth' l d) by lia. reflexivity.
Qed.
Lemma divq_ok a b : ~ b == 0 -> divq a b = Ok (a / b).
Proof. unfold divq. destruct (eqqP b 0); [contradiction|reflexivity]. Qed.

(** ** The loops *)

Lemma product_loop f j factor : forall n a s, (forall i, (a <= i < a + Z.of_nat n)%Z -> i <> j -> factor i = Ok (f i)) ->
  exists p, loop n a (fun i s => if (i =? j)%Z then Ok s else x <- factor i ;; Ok (s * x)) s = Ok p /\ p == s * qprod f (others j (zseq a n)).
Proof.
  induction n as [|n IH]; intros a s F; cbn [loop zseq].
  - exists s. split; auto. cbn [others filter qprod fold_right]. ring.
  - unfold others. cbn [filter]. fold (others j (zseq (a + 1) n)). destruct (Z.eqb_spec a j) as [->|N]; cbn [bind negb].
    + apply IH. intros; apply F; lia.
    + rewrite F by lia. cbn [bind]. destruct (IH (a + 1)%Z (s * f a)) as (p & E & P); [intros; apply F; lia|]. exists p. split; auto.
      rewrite P. cbn [qprod fold_right]. unfold qprod. ring.
Qed.
Lemma product_ok f j a b factor : (a <= b)%Z -> (forall i, (a <= i < b)%Z -> i <> j -> factor i = Ok (f i)) ->
  exists p, product a b j factor = Ok p /\ p == qprod f (others j (zseq a (Z.to_nat (b - a)))).
Proof.
  intros L F. unfold product, for_up. destruct (product_loop f j factor (Z.to_nat (b - a)) a 1) as (p & E & P); [intros; apply F; lia|].
  exists p. split; auto. rewrite P. ring.
Qed.

Definition px (v : v3) : Q := fst (fst v).
Definition py (v : v3) : Q := snd (fst v).
Definition pz (v : v3) : Q := snd v.
Definition veq_alt (a b : v3) : Prop := px a == px b /\ py a == py b /\ pz a == pz b.
Lemma veq_px a b : veq a b <-> px a == px b /\ py a == py b /\ pz a == pz b.
Proof. destruct a as [[x y] z], b as [[x' y'] z']. reflexivity. Qed.
Lemma vcomb a k b : px (vadd a (vscale k b)) = px a + k * px b /\ py (vadd a (vscale k b)) = py a + k * py b /\ pz (vadd a (vscale k b)) = pz a + k * pz b.
Proof. destruct a as [[x y] z], b as [[x' y'] z']. auto. Qed.

Lemma sum_loop (W : Z -> Q) (V : Z -> v3) body : forall n a s,
  (forall j, (a <= j < a + Z.of_nat n)%Z -> exists w, (forall ans, body j ans = Ok (vadd ans (vscale w (V j)))) /\ w == W j) ->
  exists v, loop n a body s = Ok v /\
    px v == px s + qsum (fun j => W j * px (V j)) (zseq a n) /\ py v == py s + qsum (fun j => W j * py (V j)) (zseq a n) /\ pz v == pz s + qsum (fun j => W j * pz (V j)) (zseq a n).
Proof.
  induction n as [|n IH]; intros a s F; cbn [loop zseq].
  - exists s. cbn [qsum fold_right]. split; auto. repeat split; ring.
  - destruct (F a) as (w & E & Ew); [lia|]. rewrite E. cbn [bind]. destruct (IH (a + 1)%Z (vadd s (vscale w (V a)))) as (v & EV & X & Y & Z0); [intros; apply F; lia|].
    exists v. split; auto. destruct (vcomb s w (V a)) as (CX & CY & CZ). rewrite CX in X. rewrite CY in Y. rewrite CZ in Z0.
    cbn [qsum fold_right]. unfold qsum in X, Y, Z0. rewrite X, Y, Z0, Ew. repeat split; ring.
Qed.

Lemma in_zseq a n i : In i (zseq a n) <-> (a <= i < a + Z.of_nat n)%Z.
Proof.
  revert a. induction n as [|n IH]; intros a; cbn [zseq In]; [lia|]. rewrite IH. lia.
Qed.
Lemma zseq_nodup a n : NoDup (zseq a n).
Proof. revert a. induction n as [|n IH]; intros a; cbn [zseq]; constructor; auto. rewrite in_zseq. lia. Qed.
Lemma zseq_len a n : length (zseq a n) = n.
Proof. revert a. induction n as [|n IH]; intros a; cbn [zseq length]; auto. Qed.

(** The sum of Lagrange's formula over a window. *)
Section Formula.
Variables (T : Z -> Q) (V : Z -> v3) (a : Z) (n : nat).
Notation l := (zseq a n).
Hypothesis APART : forall i j, (a <= i < a + Z.of_nat n)%Z -> (a <= j < a + Z.of_nat n)%Z -> i <> j -> ~ T i == T j.

Definition formula (t : Q) : v3 := (lag T (fun j => px (V j)) l t, lag T (fun j => py (V j)) l t, lag T (fun j => pz (V j)) l t).

Lemma sep : separated T l.
Proof. split; [apply zseq_nodup|]. intros i j I J. rewrite in_zseq in *. auto. Qed.

Lemma formula_loop body t :
  (forall j, (a <= j < a + Z.of_nat n)%Z -> exists num den, num == qprod (fun i => t - T i) (others j l) /\ den == qprod (fun i => T j - T i) (others j l) /\
     forall ans, body j ans = (w <- divq num den ;; Ok (vadd ans (vscale w (V j))))) ->
  exists v, loop n a body vzero = Ok v /\ veq v (formula t).
Proof.
  intros B.
  destruct (sum_loop (fun j => qprod (fun i => t - T i) (others j l) / qprod (fun i => T j - T i) (others j l)) V body n a vzero) as (v & E & X & Y & Z0).
  - intros j J. destruct (B j J) as (num & den & EN & ED & Eb). exists (num / den). split.
    + intros ans. rewrite Eb, divq_ok; [reflexivity|]. rewrite ED. apply qprod_nonzero. intros i I. apply others_in in I. destruct I as (I & N). rewrite in_zseq in I.
      intros Z0. apply (APART j i); auto; lra.
    + now rewrite EN, ED.
  - exists v. split; auto. apply veq_px. split; [|split]; [rewrite X|rewrite Y|rewrite Z0]; apply Qplus_0_l.
Qed.

Lemma formula_at k : (a <= k < a + Z.of_nat n)%Z -> veq (formula (T k)) (V k).
Proof.
  intros K. apply veq_px.
  assert (I : In k l) by (apply in_zseq; auto). pose proof sep as SP. split; [|split]; [apply (lag_at T (fun j => px (V j)))|apply (lag_at T (fun j => py (V j)))|apply (lag_at T (fun j => pz (V j)))]; auto.
Qed.

Lemma formula_curve : exists c, of_degree_below n c /\ (forall k, (a <= k < a + Z.of_nat n)%Z -> veq (V k) (ceval c (T k))) /\ forall t, veq (formula t) (ceval c t).
Proof.
  pose proof sep as SP.
  destruct (lag_poly T (fun j => px (V j)) l SP) as (x & LX & X). destruct (lag_poly T (fun j => py (V j)) l SP) as (y & LY & Y).
  destruct (lag_poly T (fun j => pz (V j)) l SP) as (z & LZ & Z0). rewrite zseq_len in *. exists (x, y, z). split; [split; auto|].
  assert (E : forall t, veq (formula t) (ceval (x, y, z) t)) by (intros t; split; [symmetry; apply X|split; symmetry; [apply Y|apply Z0]]).
  split; auto. intros k K. pose proof (formula_at k K) as A. specialize (E (T k)). apply veq_px in A, E. apply veq_px. destruct A as (A1 & A2 & A3), E as (E1 & E2 & E3).
  repeat split; [now rewrite <- A1|now rewrite <- A2|now rewrite <- A3].
Qed.

Lemma formula_unique c t : of_degree_below n c -> (forall k, (a <= k < a + Z.of_nat n)%Z -> veq (V k) (ceval c (T k))) -> veq (formula t) (ceval c t).
Proof.
  destruct c as [[x y] z]. intros (LX & LY & LZ) E. pose proof sep as SP. unfold formula, veq, ceval.
  repeat split; apply lag_unique; auto; try (rewrite zseq_len; auto); intros k I; apply in_zseq in I; apply E in I; apply veq_px in I; symmetry; tauto.
Qed.
End Formula.

(** ** Irregular times *)

Lemma ascending_nth l : ascending l -> forall i j, (i < j < length l)%nat -> nth i l 0 < nth j l 0.
Proof.
  unfold ascending. induction 1 as [|x l S IH F]; intros i j H; cbn [length] in H; [lia|]. destruct j as [|j]; [lia|]. destruct i as [|i]; cbn [nth].
  - rewrite Forall_forall in F. apply F. apply nth_In. lia.
  - apply IH. lia.
Qed.

Lemma first_after_ok t : forall times i,
  (first_after times t i = (-1)%Z /\ forall k, (k < length times)%nat -> nth k times 0 <= t) \/
  (exists k, (k < length times)%nat /\ first_after times t i = (i + Z.of_nat k)%Z /\ t < nth k times 0 /\ forall m, (m < k)%nat -> nth m times 0 <= t).
Proof.
  induction times as [|x times IH]; intros i; cbn [first_after length]; [left; split; auto; lia|].
  destruct (ltqP t x) as [L|L].
  - right. exists 0%nat. cbn [nth]. split; [lia|]. split; [lia|]. split; auto. lia.
  - destruct (IH (i + 1)%Z) as [(E & H)|(k & K & E & A & B)].
    + left. split; auto. intros [|k] H'; cbn [nth]; auto. apply H. lia.
    + right. exists (S k). cbn [nth]. split; [lia|]. split; [lia|]. split; auto. intros [|m] M; cbn [nth]; auto. apply B. lia.
Qed.

Lemma lagrange_var_ok samples times radius t : (1 < length samples)%nat -> length samples = length times -> (1 < radius)%Z -> ascending times ->
  ((size samples < 2 * radius)%Z -> lagrange_var samples times radius t = Throw ArgumentErr) /\
  ((2 * radius <= size samples)%Z -> exists start, (0 <= start /\ start + 2 * radius <= size samples)%Z /\
    (start = 0%Z \/ (start + 2 * radius = size samples)%Z \/
       (nth (Z.to_nat (start + radius - 1)) times 0 <= t /\ t < nth (Z.to_nat (start + radius)) times 0)) /\
    (forall k, (k < length times)%nat -> t == nth k times 0 -> (start <= Z.of_nat k < start + 2 * radius)%Z) /\
    exists v, lagrange_var samples times radius t = Ok v /\
      veq v (formula (fun i => nth (Z.to_nat i) times 0) (fun i => nth (Z.to_nat i) samples vzero) start (Z.to_nat (2 * radius)) t)).
Proof.
  intros N1 NE R A. unfold lagrange_var, size. rewrite <- NE.
  destruct (Z.leb_spec (Z.of_nat (length samples)) 1); [lia|]. rewrite Z.eqb_refl. cbn [negb]. destruct (Z.leb_spec radius 1); [lia|].
  assert (NX : exists nx, next_sample times t = Z.of_nat nx /\ (nx < length times)%nat /\ (forall m, (m < nx)%nat -> nth m times 0 <= t) /\
     (t < nth nx times 0 \/ (nx = length times - 1)%nat /\ nth nx times 0 <= t)).
  { unfold next_sample. destruct (first_after_ok t times 0) as [(E & H')|(k & K & E & B & C)]; rewrite E.
    - destruct (Z.ltb_spec (-1) 0); [|lia]. exists (length times - 1)%nat. unfold size. split; [lia|]. split; [lia|]. split; [intros; apply H'; lia|]. right. split; auto. apply H'. lia.
    - destruct (Z.ltb_spec (0 + Z.of_nat k) 0); [lia|]. exists k. auto. }
  destruct NX as (nx & -> & NXL & NXB & NXA). set (n := length samples) in *.
  assert (WIN : exists start fin, var_window (Z.of_nat n) (Z.of_nat nx) radius = (start, fin) /\ (fin <= Z.of_nat n)%Z /\ (fin - start = 2 * radius)%Z /\
    (start < 0 -> Z.of_nat n < 2 * radius)%Z /\ (2 * radius <= Z.of_nat n -> 0 <= start /\ (start = 0 \/ start + 2 * radius = Z.of_nat n \/ start = Z.of_nat nx - radius) /\
      start <= Z.of_nat nx - 1 + (if (nx =? 0)%nat then 1 else 0) /\ Z.of_nat nx < start + 2 * radius)%Z).
  { unfold var_window. destruct (Z.ltb_spec (Z.of_nat nx - radius) 0).
    - destruct (Z.ltb_spec (Z.of_nat n) (Z.of_nat nx + radius - (Z.of_nat nx - radius))).
      + exists (0 - (Z.of_nat nx + radius - (Z.of_nat nx - radius) - Z.of_nat n))%Z, (Z.of_nat n). split; auto. lia.
      + exists 0%Z, (Z.of_nat nx + radius - (Z.of_nat nx - radius))%Z. split; auto. destruct (Nat.eqb_spec nx 0); lia.
    - destruct (Z.ltb_spec (Z.of_nat n) (Z.of_nat nx + radius)).
      + exists (Z.of_nat nx - radius - (Z.of_nat nx + radius - Z.of_nat n))%Z, (Z.of_nat n). split; auto. destruct (Nat.eqb_spec nx 0); lia.
      + exists (Z.of_nat nx - radius)%Z, (Z.of_nat nx + radius)%Z. split; auto. destruct (Nat.eqb_spec nx 0); lia. }
  destruct WIN as (start & fin & EW & FL & FS & NEG & POS). rewrite EW. clear EW. split.
  - intros S. destruct (Z.leb_spec 0 start); [lia|]. reflexivity.
  - intros S. destruct (POS S) as (S0 & CASES & LO & HI). destruct (Z.leb_spec 0 start); [|lia]. destruct (Z.leb_spec fin (Z.of_nat n)); [|lia]. cbn [andb negb].
    exists start. split; [lia|]. split; [|split].
    + destruct CASES as [->|[E|E]]; auto. destruct NXA as [L|(E2 & L)].
      * right. right. split; [apply NXB; lia|]. replace (Z.to_nat (start + radius)) with nx by lia. auto.
      * right. left. lia.
    + intros k K E. assert (~ (nx < k)%nat).
      { intros L. destruct NXA as [L'|(E2 & L')]; [|lia]. pose proof (ascending_nth times A nx k ltac:(lia)). lra. }
      assert (k = nx \/ (k = nx - 1 /\ nx <> 0))%nat as [->|(-> & NZ)].
      { destruct (Nat.eq_dec k nx); auto. right. destruct (Nat.eq_dec k (nx - 1)); [lia|]. exfalso. pose proof (ascending_nth times A k (nx - 1) ltac:(lia)).
        specialize (NXB (nx - 1)%nat ltac:(lia)). lra. }
      * destruct (Nat.eqb_spec nx 0); [lia|]. lia.
      * destruct (Nat.eqb_spec nx 0); lia.
    + unfold for_up. replace (Z.to_nat (fin - start)) with (Z.to_nat (2 * radius)) by lia.
      set (T := fun i => nth (Z.to_nat i) times 0). set (V := fun i => nth (Z.to_nat i) samples vzero).
      apply (formula_loop T V).
      * intros i j I J NIJ. unfold T. destruct (Z_lt_le_dec i j).
        -- pose proof (ascending_nth times A (Z.to_nat i) (Z.to_nat j) ltac:(lia)). lra.
        -- pose proof (ascending_nth times A (Z.to_nat j) (Z.to_nat i) ltac:(lia)). lra.
      * intros j J.
        destruct (product_ok (fun i => t - T i) j start fin (fun i => ti <- get times i ;; Ok (t - ti)) ltac:(lia)) as (num & EN & PN).
        { intros i I _. rewrite (get_ok times i 0) by (unfold size; lia). reflexivity. }
        destruct (product_ok (fun i => T j - T i) j start fin (fun i => tj <- get times j ;; ti <- get times i ;; Ok (tj - ti)) ltac:(lia)) as (den & ED & PD).
        { intros i I _. rewrite (get_ok times i 0), (get_ok times j 0) by (unfold size; lia). reflexivity. }
        replace (Z.to_nat (fin - start)) with (Z.to_nat (2 * radius)) in * by lia.
        exists num, den. split; auto. split; auto. intros ans. rewrite EN, ED. cbn [bind]. unfold divq. destruct (Qeq_bool den 0); cbn [bind]; [reflexivity|].
        rewrite (get_ok samples j vzero) by (unfold size; fold n; lia). reflexivity.
Qed.
