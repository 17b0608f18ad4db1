(* Facts about forests that do not concern the code. *)
From Coq Require Import ZArith List Lia Bool Permutation.
From Verif Require Import Lib.Base Lib.Lists DSet.Spec Mst.Model Mst.Spec.
Import ListNotations.
Local Open Scope Z_scope.

Definition pair := (Z * Z)%type.
Definition lk (E : list pair) (p : pair) : Prop := linked E (fst p) (snd p).

Lemma linked_dec (E : list pair) x y : linked E x y \/ ~ linked E x y.
Proof.
  revert x y. induction E as [|[u v] E IH]; intros x y.
  - destruct (Z.eq_dec x y) as [->|N]; [left; constructor|right; intros H; apply N, linked_nil; auto].
  - rewrite linked_cons. destruct (IH x y), (IH x u), (IH v y), (IH x v), (IH u y); tauto.
Qed.

Lemma lk_incl (E F : list pair) p : incl E F -> lk E p -> lk F p.
Proof. intros I. apply linked_incl. auto. Qed.

(* swapping one pair for another *)
Lemma exchange (E : list pair) e f : lk (e :: E) f -> ~ lk E f -> lk (f :: E) e.
Proof.
  destruct e as [u v], f as [x y]. unfold lk. simpl. rewrite !linked_cons.
  intros [H|[[H1 H2]|[H1 H2]]] N; [contradiction| |]; right.
  - left. split; apply l_sym; auto.
  - right. split; auto.
Qed.

Lemma linked_sub (E F : list pair) x y : (forall p, In p E -> lk F p) -> linked E x y -> linked F x y.
Proof.
  intros H L. induction L as [|a b I|a b L IH|a b c L1 IH1 L2 IH2]; [constructor|apply (H _ I)|apply l_sym; auto|eapply l_trans; eauto].
Qed.

Fixpoint acyc (R A : list pair) : Prop :=
  match A with [] => True | a :: A' => ~ lk (A' ++ R) a /\ acyc R A' end.

Lemma incl_mid (A R : list pair) b : incl (A ++ b :: R) (b :: A ++ R) /\ incl (b :: A ++ R) (A ++ b :: R).
Proof. split; intros x; simpl; rewrite !in_app_iff; simpl; tauto. Qed.

Lemma contract R b A : acyc R A ->
  acyc (b :: R) A \/
  exists A0, length A = S (length A0) /\ acyc (b :: R) A0 /\ incl A0 A /\
    (forall p, lk (A0 ++ b :: R) p -> lk (A ++ R) p).
Proof.
  induction A as [|a A IH]; intros AC; [left; exact I|]. destruct AC as [NA AC]. destruct (IH AC) as [K|(A0 & L & K & I & S)].
  - destruct (linked_dec (A ++ b :: R) (fst a) (snd a)) as [D|D]; [|left; split; auto].
    right. exists A. split; auto. split; auto. split; [intros x Hx; right; auto|].
    assert (X : lk (a :: A ++ R) b).
    { apply exchange; [|exact NA]. eapply lk_incl; [|exact D]. apply incl_mid. }
    intros p Hp. eapply linked_sub; [|exact Hp]. intros q Hq. apply in_app_or in Hq. destruct Hq as [Hq|[<-|Hq]].
    + destruct q. apply l_edge. simpl. right. apply in_or_app; auto.
    + exact X.
    + destruct q. apply l_edge. simpl. right. apply in_or_app; auto.
  - right. exists (a :: A0). simpl. split; [lia|]. split; [split; auto|split].
    + intros x [<-|Hx]; [left; auto|right; auto].
    + intros p Hp. eapply linked_sub; [|exact Hp]. intros q [<-|Hq].
      * destruct a. apply l_edge. left; auto.
      * eapply lk_incl; [|apply S]; [intros x Hx; right; auto|]. destruct q. apply l_edge. auto.
Qed.

(* A set without cycles is no larger than any set that joins as much. *)
Lemma steinitz B : forall R A, acyc R A -> (forall a, In a A -> lk (B ++ R) a) -> (length A <= length B)%nat.
Proof.
  induction B as [|b B IH]; intros R A AC H.
  - destruct A as [|a A]; auto. exfalso. destruct AC as [N _]. apply N. eapply lk_incl; [|apply H; left; auto].
    intros x Hx. apply in_or_app. auto.
  - destruct (contract R b A AC) as [K|(A0 & L & K & I & S)].
    + apply le_S. apply (IH (b :: R)); auto. intros a Ha. eapply lk_incl; [|apply H; auto]. apply incl_mid.
    + rewrite L. simpl. apply le_n_S. apply (IH (b :: R)); auto.
      intros a Ha. eapply lk_incl; [|apply H, I; auto]. apply incl_mid.
Qed.

Lemma acyc_filter R A (f : pair -> bool) : acyc R A -> acyc R (filter f A).
Proof.
  induction A as [|a A IH]; simpl; auto. intros [N K]. destruct (f a); auto. split; auto.
  intros D. apply N. eapply lk_incl; [|exact D]. intros x. rewrite !in_app_iff, filter_In. tauto.
Qed.

Lemma acyc_forest A : acyc [] A -> forall A1 e B, A = A1 ++ e :: B -> ~ lk (A1 ++ B) e.
Proof.
  intros AC A1. revert A AC. induction A1 as [|a A1 IH]; intros A AC e B ->.
  - destruct AC as [N _]. rewrite app_nil_r in N. exact N.
  - destruct AC as [N AC]. rewrite app_nil_r in N. intros D. specialize (IH _ AC e B eq_refl).
    apply N. eapply lk_incl; [|apply (exchange (A1 ++ B) a e); auto]. apply incl_mid.
Qed.

(* ---- sums ---- *)
Fixpoint ins (x : Z) (l : list Z) : list Z :=
  match l with [] => [x] | y :: t => if x <=? y then x :: l else y :: ins x t end.
Fixpoint isort (l : list Z) : list Z := match l with [] => [] | x :: t => ins x (isort t) end.
Inductive asc : list Z -> Prop :=
| asc_nil : asc [] | asc_cons x l : (forall y, In y l -> x <= y) -> asc l -> asc (x :: l).
Lemma ins_perm x l : Permutation (x :: l) (ins x l).
Proof.
  induction l as [|y t IH]; simpl; auto. destruct (x <=? y); auto. rewrite perm_swap. constructor. auto.
Qed.
Lemma isort_perm l : Permutation l (isort l).
Proof. induction l; simpl; auto. rewrite <- ins_perm. constructor; auto. Qed.
Lemma ins_asc x l : asc l -> asc (ins x l).
Proof.
  induction 1 as [|y t H A IH]; simpl; [repeat constructor; intros ? []|]. destruct (Z.leb_spec x y).
  - constructor; [|constructor; auto]. intros z [<-|Hz]; auto. specialize (H z Hz). lia.
  - constructor; auto. intros z Hz. apply (Permutation_in z (Permutation_sym (ins_perm x t))) in Hz. destruct Hz as [<-|Hz]; [lia|auto].
Qed.
Lemma isort_asc l : asc (isort l).
Proof. induction l; simpl; [constructor|apply ins_asc; auto]. Qed.

Definition below (c : Z) (l : list Z) : nat := count (fun x => x <=? c) l.
Lemma below_perm c l m : Permutation l m -> below c l = below c m.
Proof.
  unfold below, count. induction 1; simpl; auto; [destruct (x <=? c); simpl; auto|destruct (x <=? c), (y <=? c); simpl; auto|congruence].
Qed.
Lemma zsum_perm l m : Permutation l m -> zsum l = zsum m.
Proof. unfold zsum. induction 1; simpl; lia. Qed.

Lemma below_0 c l : (forall y, In y l -> c < y) -> below c l = 0%nat.
Proof.
  unfold below, count. induction l as [|a l IH]; intros H; simpl; auto. pose proof (H a (or_introl eq_refl)).
  destruct (Z.leb_spec a c); [lia|]. apply IH. intros; apply H; right; auto.
Qed.

Lemma sum_le : forall K F, asc K -> asc F -> length K = length F -> (forall c, (below c F <= below c K)%nat) -> zsum K <= zsum F.
Proof.
  induction K as [|k K IH]; intros F AK AF L B; destruct F as [|f F]; try discriminate.
  inversion AK as [|? ? HK AK']; subst. inversion AF as [|? ? HF AF']; subst.
  assert (KF : k <= f).
  { destruct (Z.le_gt_cases k f); auto. exfalso. specialize (B f). rewrite (below_0 f (k :: K)) in B.
    - unfold below, count in B. simpl in B. destruct (Z.leb_spec f f); simpl in B; lia.
    - intros y [<-|Hy]; [lia|]. specialize (HK y Hy). lia. }
  assert (IHs : zsum K <= zsum F).
  { apply IH; auto. intros c. specialize (B c). unfold below, count in B. simpl in B. fold (count (fun x => x <=? c) F) in B.
    destruct (Z.leb_spec f c).
    - destruct (Z.leb_spec k c); [|lia]. simpl in B. unfold below, count in *. lia.
    - rewrite (below_0 c F); [lia|]. intros y Hy. specialize (HF y Hy). lia. }
  simpl. lia.
Qed.
