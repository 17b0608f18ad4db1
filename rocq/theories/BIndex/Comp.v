(* A connected components function that meets the contract of BIndex/Spec.v, to
   show that the contract can be met.  It is not a model of boost's code. *)
From Coq Require Import ZArith List Lia Bool Relations.
From Verif Require Import Lib.Base Lib.Lists BIndex.Spec.
Import ListNotations.
Local Open Scope Z_scope.

Definition merge (rep : Z -> Z) (e : Z * Z) : Z -> Z :=
  let a := rep (fst e) in let b := rep (snd e) in
  fun v => if (rep v =? a) || (rep v =? b) then Z.min a b else rep v.
Definition reps (es : list (Z * Z)) : Z -> Z := fold_left merge es (fun v => v).
Definition leaders (rep : Z -> Z) (n : Z) : Z := Z.of_nat (count (fun v => rep v =? v) (zseq 0 (Z.to_nat n))).
Definition cc_ref (n : Z) (es : list (Z * Z)) : (Z -> Z) * Z :=
  (fun v => leaders (reps es) (reps es v), leaders (reps es) n).

Definition rep_ok (rep : Z -> Z) (es : list (Z * Z)) : Prop :=
  (forall u v, rep u = rep v <-> linked es u v) /\ (forall v, rep v <= v) /\ (forall v, rep (rep v) = rep v).

Lemma linked_app_l es es' a b : linked es a b -> linked (es ++ es') a b.
Proof.
  intros H. induction H as [a b H | a | a b H IH | a b c H1 IH1 H2 IH2].
  - apply rst_step, in_or_app. left; exact H.
  - apply rst_refl.
  - apply rst_sym, IH.
  - apply rst_trans with b; assumption.
Qed.
Lemma merge_ok rep es e : rep_ok rep es -> rep_ok (merge rep e) (es ++ [e]).
Proof.
  intros (H & L & I). destruct e as [p q]. unfold merge. cbn [fst snd]. set (a := rep p). set (b := rep q).
  assert (Cv : forall v, (rep v = a \/ rep v = b) /\ merge rep (p, q) v = Z.min a b \/ (rep v <> a /\ rep v <> b) /\ merge rep (p, q) v = rep v).
  { intros v. unfold merge. cbn [fst snd]. fold a b. destruct (rep v =? a) eqn:A; [ apply Z.eqb_eq in A; left; auto | apply Z.eqb_neq in A ].
    destruct (rep v =? b) eqn:B; [ apply Z.eqb_eq in B; left; auto | apply Z.eqb_neq in B; right; auto ]. }
  change (rep_ok (merge rep (p, q)) (es ++ [(p, q)])). set (g := merge rep (p, q)) in *.
  assert (Lpq : linked (es ++ [(p, q)]) p q) by (apply rst_step, in_or_app; right; left; reflexivity).
  assert (Lab : forall v, rep v = a \/ rep v = b -> linked (es ++ [(p, q)]) v p).
  { intros v [X | X]; apply H in X; [ apply linked_app_l, X | ]. apply rst_trans with q; [ apply linked_app_l, X | apply rst_sym, Lpq ]. }
  assert (Min : Z.min a b = a \/ Z.min a b = b) by lia.
  split; [ | split ].
  - intros u v. split.
    + intros E. destruct (Cv u) as [(Hu & Eu) | (Hu & Eu)]; destruct (Cv v) as [(Hv & Ev) | (Hv & Ev)].
      * apply rst_trans with p; [ apply Lab, Hu | apply rst_sym, Lab, Hv ].
      * lia.
      * lia.
      * apply linked_app_l, H. congruence.
    + intros K. induction K as [x y K | x | x y K IH | x y z K1 IH1 K2 IH2]; [ | reflexivity | auto | congruence ].
      apply in_app_or in K. destruct K as [K | [K | []]].
      * assert (E : rep x = rep y) by (apply H, rst_step, K). subst g. unfold merge. rewrite E. reflexivity.
      * injection K as <- <-. destruct (Cv p) as [(_ & ->) | ((X & _) & _)]; [ | destruct X; reflexivity ].
        destruct (Cv q) as [(_ & ->) | ((_ & X) & _)]; [ reflexivity | destruct X; reflexivity ].
  - intros v. pose proof (L v). destruct (Cv v) as [(Hv & ->) | (Hv & ->)]; lia.
  - intros v. assert (Ia : rep a = a) by apply I. assert (Ib : rep b = b) by apply I. destruct (Cv v) as [(Hv & ->) | (Hv & ->)].
    + destruct (Cv (Z.min a b)) as [(_ & ->) | (X & _)]; [ reflexivity | ]. exfalso. destruct Min as [M | M]; rewrite M in X; tauto.
    + destruct (Cv (rep v)) as [(X & _) | (_ & ->)]; [ rewrite I in X; tauto | apply I ].
Qed.
Lemma reps_ok es : rep_ok (reps es) es.
Proof.
  induction es as [|e es IH] using rev_ind.
  - split; [ | split; intros; cbn; lia ]. intros u v. cbn. split; [ intros ->; apply rst_refl | ].
    intros H. induction H as [a b H | a | a b H IH | a b c H1 IH1 H2 IH2]; [ destruct H | reflexivity | auto | congruence ].
  - unfold reps. rewrite fold_left_app. cbn [fold_left]. apply merge_ok, IH.
Qed.

Lemma leaders_S rep n : 0 <= n -> leaders rep (n + 1) = leaders rep n + (if rep n =? n then 1 else 0).
Proof.
  intros N. unfold leaders. replace (Z.to_nat (n + 1)) with (Z.to_nat n + 1)%nat by lia.
  assert (Sp : forall a p, zseq a (p + 1) = zseq a p ++ [a + Z.of_nat p]).
  { intros a p. revert a. induction p as [|p IH]; intros a; cbn [zseq Nat.add app]; [ f_equal; lia | ]. rewrite IH. cbn [app]. f_equal. f_equal. f_equal. lia. }
  rewrite Sp, count_app. replace (0 + Z.of_nat (Z.to_nat n)) with n by lia. unfold count at 2. cbn [filter]. destruct (rep n =? n); cbn [length]; lia.
Qed.
Lemma leaders_0 rep : leaders rep 0 = 0. Proof. reflexivity. Qed.
Lemma leaders_mono rep a b : 0 <= a <= b -> leaders rep a <= leaders rep b.
Proof.
  intros H. replace b with (a + Z.of_nat (Z.to_nat (b - a))) by lia. induction (Z.to_nat (b - a)) as [|n IH]; [ rewrite Z.add_0_r; lia | ].
  replace (a + Z.of_nat (S n)) with (a + Z.of_nat n + 1) by lia. rewrite leaders_S by lia. destruct (rep _ =? _); lia.
Qed.
Lemma leaders_onto rep n c : 0 <= n -> 0 <= c < leaders rep n -> exists v, 0 <= v < n /\ rep v = v /\ leaders rep v = c.
Proof.
  intros N. replace n with (Z.of_nat (Z.to_nat n)) by lia. induction (Z.to_nat n) as [|m IH]; intros C.
  - rewrite leaders_0 in C. lia.
  - replace (Z.of_nat (S m)) with (Z.of_nat m + 1) in C by lia. rewrite leaders_S in C by lia.
    destruct (Z_lt_ge_dec c (leaders rep (Z.of_nat m))) as [X | X].
    + destruct (IH ltac:(lia)) as (v & V & R). exists v. split; [ lia | exact R ].
    + destruct (rep (Z.of_nat m) =? Z.of_nat m) eqn:Q; [ apply Z.eqb_eq in Q | lia ]. exists (Z.of_nat m). split; [ lia | ]. split; [ exact Q | lia ].
Qed.

Lemma reps_low es : (forall a b, In (a, b) es -> 0 <= a /\ 0 <= b) -> forall v, 0 <= v -> 0 <= reps es v.
Proof.
  induction es as [|e es IH] using rev_ind; intros H v V; [ exact V | ].
  unfold reps. rewrite fold_left_app. cbn [fold_left]. fold (reps es). destruct e as [a b].
  assert (IH' := IH (fun a b I => H a b (in_or_app _ _ _ (or_introl I)))).
  destruct (H a b) as (A & B); [ apply in_or_app; right; left; reflexivity | ]. unfold merge. cbn [fst snd].
  pose proof (IH' a A). pose proof (IH' b B). pose proof (IH' v V). destruct (_ || _); lia.
Qed.

Lemma cc_ref_ok n es : 1 <= n -> (forall a b, In (a, b) es -> 0 <= a < n /\ 0 <= b < n) -> components n es (fst (cc_ref n es)) (snd (cc_ref n es)).
Proof.
  intros N Es. unfold cc_ref. cbn [fst snd]. destruct (reps_ok es) as (H & L & I).
  assert (Low : forall v, 0 <= v -> 0 <= reps es v) by (apply reps_low; intros a b X; apply Es in X; lia).
  assert (Strict : forall u v, 0 <= u < v -> reps es u = u -> leaders (reps es) u < leaders (reps es) v).
  { intros u v U E. pose proof (leaders_S (reps es) u ltac:(lia)) as S. rewrite E, Z.eqb_refl in S. pose proof (leaders_mono (reps es) (u + 1) v ltac:(lia)). lia. }
  split; [ | split; [ | split ] ].
  - intros v V. pose proof (L v). pose proof (Low v ltac:(lia)). split; [ unfold leaders; lia | ]. apply Strict; [ lia | apply I ].
  - intros c C. destruct (leaders_onto _ n c ltac:(lia) C) as (v & V & E & F). exists v. split; [ exact V | ]. rewrite E. exact F.
  - pose proof (L 0). pose proof (Low 0 ltac:(lia)). replace (reps es 0) with 0 by lia. reflexivity.
  - intros u v U V. rewrite <- H. split; [ | intros ->; reflexivity ]. intros E.
    pose proof (Low u ltac:(lia)). pose proof (Low v ltac:(lia)).
    destruct (Z_lt_ge_dec (reps es u) (reps es v)) as [X | X].
    + pose proof (Strict (reps es u) (reps es v) ltac:(lia) (I u)). lia.
    + destruct (Z.eq_dec (reps es u) (reps es v)) as [Y | Y]; [ exact Y | ]. pose proof (Strict (reps es v) (reps es u) ltac:(lia) (I v)). lia.
Qed.
