(* The two queue disciplines inside the pool. *)
From Coq Require Import ZArith List Lia Bool Permutation.
From Verif Require Import Lib.Base Pool.Model Pool.Proofs.
Import ListNotations.
Local Open Scope Z_scope.

Lemma fifo_log {T} n c (p : pool T T (list T)) :
  reach fifo_push fifo_pop [] n c p -> submitted p = taken p ++ q p.
Proof.
  induction 1 as [|p p' R IH ST|p p' R IH ST]; auto.
  - destruct ST; cbn [submitted taken q] in *; auto;
      destruct Q0 as [|y Q0]; simpl in H; inversion H; subst; rewrite <- app_assoc; auto.
  - destruct ST; cbn [submitted taken q] in *; auto. unfold fifo_push. rewrite IH, app_assoc. reflexivity.
Qed.

(* keys strictly increasing *)
Fixpoint inc {T} (lo : Z) (m : list (Z * T)) : Prop :=
  match m with [] => True | (k, _) :: r => lo <= k /\ inc (k + 1) r end.
Lemma inc_weak {T} (m : list (Z * T)) : forall a b, b <= a -> inc a m -> inc b m.
Proof. induction m as [|[k t] r IH]; simpl; auto. intros a b H (H1 & H2). split; [lia|auto]. Qed.
Lemma inc_put {T} (m : list (Z * T)) : forall lo k t, inc lo m -> lo <= k -> inc lo (map_put m k t).
Proof.
  induction m as [|[j u] r IH]; intros lo k t H L; simpl in *; [auto|]. destruct H as (H1 & H2).
  destruct (Z.ltb_spec k j); [simpl; repeat split; auto; lia|].
  destruct (Z.eqb_spec k j); simpl; [subst; auto|]. split; auto. apply IH; auto. lia.
Qed.
Lemma put_perm {T} (m : list (Z * T)) k t : ~ In k (map fst m) -> Permutation (map_put m k t) ((k, t) :: m).
Proof.
  induction m as [|[j u] r IH]; simpl; auto. intros H.
  destruct (Z.ltb_spec k j); auto. destruct (Z.eqb_spec k j); [subst; tauto|].
  rewrite IH by tauto. apply perm_swap.
Qed.
Lemma inc_ge {T} (m : list (Z * T)) : forall lo x, inc lo m -> In x m -> lo <= fst x.
Proof.
  induction m as [|[j u] r IH]; simpl; [tauto|]. intros lo x (H1 & H2) [<-|Hx]; auto.
  specialize (IH _ _ H2 Hx). lia.
Qed.

Record olog {T} (p : pool (Z * T) (Z * T) (list (Z * T) * Z)) : Prop := Olog {
  o_perm : Permutation (submitted p) (taken p ++ fst (q p));
  o_keys : map fst (taken p) = zrange 0 (snd (q p));
  o_inc : inc (snd (q p)) (fst (q p));
  o_pos : 0 <= snd (q p) }.

Lemma zrange_snoc a b : a <= b -> zrange a (b + 1) = zrange a b ++ [b].
Proof. intros. rewrite (zrange_app a b (b + 1)) by lia. rewrite (zrange_cons b) by lia. rewrite (zrange_nil (b + 1)) by lia. reflexivity. Qed.

Lemma sub_prefix {T S Q} (push : Q -> S -> Q) (pop : Q -> option (T * Q)) p p' :
  istep pop p p' \/ estep push p p' -> exists l, @submitted T S Q p' = submitted p ++ l.
Proof.
  intros [H|H]; destruct H; cbn [submitted]; try (exists []; rewrite app_nil_r; reflexivity). eexists; reflexivity.
Qed.
Lemma nodup_pre {A} (X Y : list A) : NoDup (X ++ Y) -> NoDup X.
Proof. induction X; simpl; intros H; constructor; inversion H; subst; auto. rewrite in_app_iff in *. tauto. Qed.

Lemma ord_log {T} n c (p : pool (Z * T) (Z * T) (list (Z * T) * Z)) :
  reach ord_push ord_pop ([], 0) n c p ->
  NoDup (map fst (submitted p)) -> (forall x, In x (submitted p) -> 0 <= fst x) -> olog p.
Proof.
  induction 1 as [|p p' R IH ST|p p' R IH ST]; intros ND NN.
  - constructor; simpl; auto; lia.
  - destruct (sub_prefix ord_push ord_pop p p' (or_introl ST)) as (l & El). rewrite El in *.
    rewrite map_app in ND. specialize (IH (nodup_pre _ _ ND) ltac:(intros; apply NN, in_or_app; auto)). clear ND NN.
    destruct IH as [P K I PO]. destruct ST; cbn [submitted taken q] in *; try (constructor; auto; fail);
    destruct Q0 as [[|[k t0] m0] nx0]; unfold ord_pop in H; cbn [fst snd] in H; try discriminate; destruct (Z.eqb_spec k nx0); inversion H; subst; simpl in *;
      (constructor; cbn [submitted taken q fst snd];
       [rewrite P, <- app_assoc; reflexivity
       |rewrite map_app; simpl; rewrite zrange_snoc by auto; congruence
       |apply I
       |lia]).
  - destruct (sub_prefix ord_push ord_pop p p' (or_intror ST)) as (l & El).
    pose proof ND as ND0. pose proof NN as NN0. rewrite El in ND, NN.
    rewrite map_app in ND. specialize (IH (nodup_pre _ _ ND) ltac:(intros; apply NN, in_or_app; auto)).
    destruct IH as [P K I PO]. destruct ST; cbn [submitted taken q] in *; [|constructor; auto].
    clear El ND NN l. rewrite map_app in ND0. simpl in ND0.
    assert (NI : ~ In (fst x) (map fst s)).
    { intros H. apply NoDup_remove_2 in ND0. apply ND0. rewrite app_nil_r. auto. }
    rewrite (Permutation_map fst P), map_app, in_app_iff in NI.
    assert (LO : snd Q0 <= fst x).
    { destruct (Z.le_gt_cases (snd Q0) (fst x)); auto. exfalso. apply NI. left. rewrite K. apply in_zrange.
      split; auto. apply NN0. apply in_or_app; simpl; auto. }
    constructor; unfold ord_push; cbn [submitted taken q fst snd]; auto.
    + rewrite put_perm by tauto. rewrite <- surjective_pairing. rewrite P, <- app_assoc.
      apply Permutation_app_head. symmetry. apply Permutation_cons_append.
    + apply inc_put; auto.
Qed.

Lemma fifo_size {T} (q : list T) t q' : fifo_pop q = Some (t, q') -> (length q' < length q)%nat.
Proof. destruct q; simpl; intros H; inversion H; subst; lia. Qed.
Lemma ord_size {T} (q : list (Z * T) * Z) t q' : ord_pop q = Some (t, q') -> (length (fst q') < length (fst q))%nat.
Proof. destruct q as [[|[k u] m] n]; unfold ord_pop; simpl; [discriminate|]. destruct (k =? n); intros H; inversion H; subst; simpl; lia. Qed.
