(* Finite sums of rationals.  Nothing here models a particular file of /repo. *)
From Coq Require Import ZArith List Lia Bool QArith Qcanon Field.
From Verif Require Import Lib.Base.
Import ListNotations.
Local Open Scope Z_scope.

(* the sum of f over a <= i < b *)
Definition qsum (a b : Z) (f : Z -> Qc) : Qc := fold_right (fun i s => (f i + s)%Qc) 0%Qc (zrange a b).

Lemma qsum_nil a b f : b <= a -> qsum a b f = 0%Qc.
Proof. intros. unfold qsum. now rewrite zrange_nil. Qed.
Lemma qsum_cons a b f : a < b -> qsum a b f = (f a + qsum (a + 1) b f)%Qc.
Proof. intros. unfold qsum. now rewrite (zrange_cons a b). Qed.
Lemma fold_app_q (l m : list Z) (f : Z -> Qc) :
  fold_right (fun i s => (f i + s)%Qc) 0%Qc (l ++ m) = (fold_right (fun i s => (f i + s)%Qc) 0%Qc l + fold_right (fun i s => (f i + s)%Qc) 0%Qc m)%Qc.
Proof. induction l; simpl; [now rewrite Qcplus_0_l|]. rewrite IHl. ring. Qed.
Lemma qsum_app a b c f : a <= b <= c -> qsum a c f = (qsum a b f + qsum b c f)%Qc.
Proof. intros. unfold qsum. rewrite (zrange_app a b c) by lia. apply fold_app_q. Qed.
Lemma qsum_snoc a b f : a <= b -> qsum a (b + 1) f = (qsum a b f + f b)%Qc.
Proof.
  intros. rewrite (qsum_app a b (b + 1)) by lia. f_equal. rewrite qsum_cons by lia.
  rewrite qsum_nil by lia. ring.
Qed.
Lemma qsum_ext a b f g : (forall i, a <= i < b -> f i = g i) -> qsum a b f = qsum a b g.
Proof.
  intros H. unfold qsum. assert (K : forall i, In i (zrange a b) -> f i = g i) by (intros i; rewrite in_zrange; apply H).
  revert K. generalize (zrange a b). induction l; simpl; intros; auto. rewrite K, IHl by auto. reflexivity.
Qed.
Lemma qsum_zero a b f : (forall i, a <= i < b -> f i = 0%Qc) -> qsum a b f = 0%Qc.
Proof.
  intros H. rewrite (qsum_ext a b f (fun _ => 0%Qc)) by auto. unfold qsum.
  induction (zrange a b); simpl; auto. rewrite IHl. ring.
Qed.
Lemma qsum_plus a b f g : qsum a b (fun i => f i + g i)%Qc = (qsum a b f + qsum a b g)%Qc.
Proof. unfold qsum. induction (zrange a b); simpl; [ring|]. rewrite IHl. ring. Qed.
Lemma qsum_mul_l a b c f : qsum a b (fun i => c * f i)%Qc = (c * qsum a b f)%Qc.
Proof. unfold qsum. induction (zrange a b); simpl; [ring|]. rewrite IHl. ring. Qed.
Lemma qsum_mul_r a b c f : qsum a b (fun i => f i * c)%Qc = (qsum a b f * c)%Qc.
Proof. unfold qsum. induction (zrange a b); simpl; [ring|]. rewrite IHl. ring. Qed.
Lemma qsum_swap a b c d (f : Z -> Z -> Qc) :
  qsum a b (fun i => qsum c d (fun j => f i j)) = qsum c d (fun j => qsum a b (fun i => f i j)).
Proof.
  unfold qsum at 1. unfold qsum at 3. induction (zrange a b); simpl.
  - symmetry. apply qsum_zero. auto.
  - rewrite IHl, <- qsum_plus. reflexivity.
Qed.
(* a sum with one term that is not zero *)
Lemma qsum_one a b k f : a <= k < b -> (forall i, a <= i < b -> i <> k -> f i = 0%Qc) -> qsum a b f = f k.
Proof.
  intros K H. rewrite (qsum_app a k b), (qsum_cons k b) by lia.
  rewrite (qsum_zero a k), (qsum_zero (k + 1) b) by (intros; apply H; lia). ring.
Qed.
Lemma qsum_shift a b k f : qsum (a + k) (b + k) f = qsum a b (fun i => f (i + k)).
Proof.
  unfold qsum, zrange. replace (b + k - (a + k)) with (b - a) by lia.
  generalize (Z.to_nat (b - a)) as n. intros n. revert a. induction n; intros a; simpl; auto.
  f_equal. replace (a + k + 1) with (a + 1 + k) by lia. apply IHn.
Qed.
(* zero terms at the front may be left out *)
Lemma qsum_skip a b c f : a <= b -> (forall i, a <= i < b -> i < c -> f i = 0%Qc) -> b <= c -> qsum a c f = qsum b c f.
Proof. intros L H K. rewrite (qsum_app a b c) by lia. rewrite (qsum_zero a b) by (intros; apply H; lia). ring. Qed.
Lemma qsum_nonneg a b f : (forall i, a <= i < b -> (0 <= f i)%Qc) -> (0 <= qsum a b f)%Qc.
Proof.
  intros H. unfold qsum. assert (K : forall i, In i (zrange a b) -> (0 <= f i)%Qc) by (intros i; rewrite in_zrange; apply H).
  revert K. generalize (zrange a b). induction l; cbn [fold_right]; intros K; [apply Qcle_refl|].
  rewrite <- (Qcplus_0_l 0). apply Qcplus_le_compat; [apply K; left|apply IHl; intros; apply K; right]; auto.
Qed.
