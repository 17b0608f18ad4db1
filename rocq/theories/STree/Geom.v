(** Facts about boxes. *)
From Verif Require Import Lib.Base Lib.Lists STree.Model STree.Spec.
From Coq Require Import List Arith Bool ZArith QArith Qround Lqa Lia Permutation.
Import ListNotations.
Open Scope Q_scope.

Lemma Forall2_impl {A B} (P Q : A -> B -> Prop) l m :
  (forall a b, P a b -> Q a b) -> Forall2 P l m -> Forall2 Q l m.
Proof. intros H F. induction F; constructor; auto. Qed.

Lemma Forall2_len {A B} (P : A -> B -> Prop) l m : Forall2 P l m -> length l = length m.
Proof. induction 1; cbn [length]; auto. Qed.

Lemma forall2b_iff {A B} (f : A -> B -> bool) l m :
  forall2b f l m = true <-> Forall2 (fun a b => f a b = true) l m.
Proof.
  split.
  - revert m. induction l as [|a l IH]; intros [|b m] H; try discriminate; constructor;
      apply andb_true_iff in H as (H1 & H2); auto.
  - induction 1; cbn [forall2b]; [reflexivity|]. apply andb_true_iff. auto.
Qed.

Lemma Qlt_b_iff a b : Qlt_b a b = true <-> a < b.
Proof.
  unfold Qlt_b. rewrite negb_true_iff. split.
  - intros H. apply Qnot_le_lt. intros L. apply Qle_bool_iff in L. congruence.
  - intros H. destruct (Qle_bool b a) eqn:E; [|reflexivity]. apply Qle_bool_iff in E. lra.
Qed.

Lemma Qle_b_false a b : Qle_bool a b = false <-> b < a.
Proof. rewrite <- Qlt_b_iff. unfold Qlt_b. rewrite negb_true_iff. reflexivity. Qed.

Definition within (i j : iv) : Prop := fst i <= fst j /\ snd j <= snd i.

Lemma contains_iff b c : contains b c = true <-> b <> [] /\ Forall2 within b c.
Proof.
  unfold contains. destruct b as [|i b]; [split; [discriminate|intros (H & _); congruence]|].
  rewrite forall2b_iff. split.
  - intros H. split; [discriminate|]. eapply Forall2_impl; [|exact H]. cbn beta. intros a d E.
    apply andb_true_iff in E as (E1 & E2). apply Qle_bool_iff in E1, E2. split; assumption.
  - intros (_ & H). eapply Forall2_impl; [|exact H]. cbn beta. intros a d (E1 & E2).
    apply andb_true_iff. split; apply Qle_bool_iff; assumption.
Qed.

Lemma contains_pt_iff b p :
  contains_pt b p = true <-> b <> [] /\ Forall2 (fun i x => fst i <= x < snd i) b p.
Proof.
  unfold contains_pt. destruct b as [|i b]; [split; [discriminate|intros (H & _); congruence]|].
  rewrite forall2b_iff. split.
  - intros H. split; [discriminate|]. eapply Forall2_impl; [|exact H]. cbn beta. intros a d E.
    apply andb_true_iff in E as (E1 & E2). apply Qle_bool_iff in E1. apply Qlt_b_iff in E2. split; assumption.
  - intros (_ & H). eapply Forall2_impl; [|exact H]. cbn beta. intros a d (E1 & E2).
    apply andb_true_iff. split; [apply Qle_bool_iff|apply Qlt_b_iff]; assumption.
Qed.

Lemma intersects_iff b c :
  intersects b c = true <-> b <> [] /\ Forall2 (fun i j => fst i < snd j /\ fst j < snd i) b c.
Proof.
  unfold intersects. destruct b as [|i b]; [split; [discriminate|intros (H & _); congruence]|].
  rewrite forall2b_iff. split.
  - intros H. split; [discriminate|]. eapply Forall2_impl; [|exact H]. cbn beta. intros a d E.
    apply andb_true_iff in E as (E1 & E2). apply negb_true_iff, Qle_b_false in E1, E2. split; assumption.
  - intros (_ & H). eapply Forall2_impl; [|exact H]. cbn beta. intros a d (E1 & E2).
    apply andb_true_iff. split; apply negb_true_iff, Qle_b_false; assumption.
Qed.

Lemma Forall2_trans' {A B C} (P : A -> B -> Prop) (Q : B -> C -> Prop) (R : A -> C -> Prop) l m n :
  (forall a b c, P a b -> Q b c -> R a c) -> Forall2 P l m -> Forall2 Q m n -> Forall2 R l n.
Proof.
  intros H F. revert n. induction F; intros n G; inversion G; subst; constructor; eauto.
Qed.

Lemma Forall2_sym' {A B} (P : A -> B -> Prop) (Q : B -> A -> Prop) l m :
  (forall a b, P a b -> Q b a) -> Forall2 P l m -> Forall2 Q m l.
Proof. intros H F. induction F; constructor; auto. Qed.

Lemma Forall2_nil_iff {A B} (P : A -> B -> Prop) l m : Forall2 P l m -> (l = [] <-> m = []).
Proof. intros [|]; split; congruence. Qed.

Lemma contains_trans a b c : contains a b = true -> contains b c = true -> contains a c = true.
Proof.
  rewrite !contains_iff. intros (N & H1) (_ & H2). split; [exact N|].
  eapply Forall2_trans'; [|exact H1|exact H2]. unfold within. intros; lra.
Qed.

Lemma contains_pt_mono a b p : contains a b = true -> contains_pt b p = true -> contains_pt a p = true.
Proof.
  rewrite contains_iff, !contains_pt_iff. intros (N & H1) (_ & H2). split; [exact N|].
  eapply Forall2_trans'; [|exact H1|exact H2]. unfold within. cbn beta. intros; lra.
Qed.

Lemma intersects_mono a b q : contains a b = true -> intersects b q = true -> intersects a q = true.
Proof.
  rewrite contains_iff, !intersects_iff. intros (N & H1) (_ & H2). split; [exact N|].
  eapply Forall2_trans'; [|exact H1|exact H2]. unfold within. cbn beta. intros; lra.
Qed.

Lemma intersects_sym a b : intersects a b = intersects b a.
Proof.
  assert (X : forall a b, intersects a b = true -> intersects b a = true).
  { intros x y. rewrite !intersects_iff. intros (N & H). split.
    - intros ->. apply N, (Forall2_nil_iff _ _ _ H). reflexivity.
    - eapply Forall2_sym'; [|exact H]. cbn beta. intros; lra. }
  destruct (intersects a b) eqn:E; symmetry; [auto|].
  destruct (intersects b a) eqn:E'; [|reflexivity]. apply X in E'. congruence.
Qed.

Lemma contains_refl b : b <> [] -> contains b b = true.
Proof.
  intros N. apply contains_iff. split; [exact N|]. clear N.
  induction b; constructor; auto. unfold within. split; lra.
Qed.

(** ** Equal boxes *)

Definition same (i j : iv) : Prop := fst i == fst j /\ snd i == snd j.
Notation box_eq := (Forall2 same).

Lemma box_eq_refl b : box_eq b b.
Proof. induction b; constructor; auto. split; reflexivity. Qed.

Lemma box_eq_sym a b : box_eq a b -> box_eq b a.
Proof. apply Forall2_sym'. unfold same. intros x y (E1 & E2). split; symmetry; assumption. Qed.

Lemma box_eq_trans a b c : box_eq a b -> box_eq b c -> box_eq a c.
Proof. apply Forall2_trans'. unfold same. intros; lra. Qed.

Lemma contains_eq a a' c : box_eq a a' -> contains a c = contains a' c.
Proof.
  assert (X : forall a a', box_eq a a' -> contains a c = true -> contains a' c = true).
  { intros x y E. rewrite !contains_iff. intros (N & H). split.
    - intros ->. apply N, (Forall2_nil_iff _ _ _ E). reflexivity.
    - eapply Forall2_trans'; [|apply Forall2_sym' with (Q := same) in E; [exact E|]|exact H].
      + unfold same, within. intros; lra.
      + unfold same. intros; lra. }
  intros E. destruct (contains a c) eqn:C.
  - symmetry. eauto.
  - destruct (contains a' c) eqn:C'; [|reflexivity]. apply box_eq_sym in E.
    rewrite (X _ _ E C') in C. discriminate.
Qed.

Lemma intersects_eq a a' c : box_eq a a' -> intersects a c = intersects a' c.
Proof.
  assert (X : forall a a', box_eq a a' -> intersects a c = true -> intersects a' c = true).
  { intros x y E. rewrite !intersects_iff. intros (N & H). split.
    - intros ->. apply N, (Forall2_nil_iff _ _ _ E). reflexivity.
    - eapply Forall2_trans'; [|apply box_eq_sym in E; exact E|exact H].
      unfold same, within. intros; lra. }
  intros E. destruct (intersects a c) eqn:C.
  - symmetry. eauto.
  - destruct (intersects a' c) eqn:C'; [|reflexivity]. apply box_eq_sym in E.
    rewrite (X _ _ E C') in C. discriminate.
Qed.

Lemma empty_false_iff b : empty b = false <-> solid b.
Proof.
  unfold empty, solid. destruct b as [|i b]; [split; [discriminate|intros (H & _); congruence]|].
  split.
  - intros H. split; [discriminate|]. apply Forall_forall. intros x J.
    apply Qle_b_false. destruct (Qle_bool (snd x) (fst x)) eqn:E; [|reflexivity].
    exfalso. assert (X : existsb (fun i => Qle_bool (snd i) (fst i)) (i :: b) = true) by (apply existsb_exists; eauto).
    congruence.
  - intros (_ & H). rewrite Forall_forall in H.
    destruct (existsb _ _) eqn:E; [|reflexivity]. apply existsb_exists in E as (x & J & E).
    apply Qle_bool_iff in E. specialize (H x J). lra.
Qed.

Lemma empty_eq a b : box_eq a b -> empty a = empty b.
Proof.
  assert (X : forall a b, box_eq a b -> empty a = false -> empty b = false).
  { intros x y E. rewrite !empty_false_iff. intros (N & F). split.
    - intros ->. apply N, (Forall2_nil_iff _ _ _ E). reflexivity.
    - clear N. induction E as [|i j x y (E1 & E2) _ IH]; [constructor|].
      inversion F; subst. constructor; [lra|auto]. }
  intros E. destruct (empty a) eqn:A.
  - destruct (empty b) eqn:B; [reflexivity|]. apply box_eq_sym in E. rewrite (X _ _ E B) in A. discriminate.
  - symmetry. eauto.
Qed.

(** ** Quadrants *)

Lemma quadrants_iff b : forall q,
  In q (quadrants b) <-> Forall2 (fun j i => j = lower i \/ j = upper i) q b.
Proof.
  induction b as [|i b IH]; intros q; cbn [quadrants].
  - split; [intros [<-|[]]; constructor|]. intros H. inversion H. left. reflexivity.
  - rewrite in_app_iff, !in_map_iff. split.
    + intros [(q' & <- & J)|(q' & <- & J)]; constructor; try (apply IH; exact J); auto.
    + intros H. inversion H as [|j ? q' ? [->| ->] H']; subst; [left|right]; exists q'; rewrite IH; auto.
Qed.

Lemma quadrants_eq a b : box_eq a b -> Forall2 (Forall2 same) (quadrants a) (quadrants b).
Proof.
  induction 1 as [|i j a b (E1 & E2) H IH]; cbn [quadrants].
  - constructor; [constructor|constructor].
  - assert (L : same (lower i) (lower j)).
    { unfold same, lower, middle, size. cbn [fst snd]. split; rewrite E1, E2; reflexivity. }
    assert (U : same (upper i) (upper j)).
    { unfold same, upper, middle, size. cbn [fst snd]. split; rewrite E1, E2; reflexivity. }
    apply Forall2_app.
    + clear - IH L. induction IH; cbn [map]; constructor; auto.
    + clear - IH U. induction IH; cbn [map]; constructor; auto.
Qed.

Lemma split_eq a b : box_eq a b -> Forall2 (Forall2 same) (split_bbox a) (split_bbox b).
Proof.
  intros E. unfold split_bbox. rewrite (empty_eq a b E). destruct (empty b).
  - rewrite (Forall2_len _ _ _ E). induction (2 ^ length b)%nat; cbn [repeat]; constructor; auto.
  - apply quadrants_eq. exact E.
Qed.

(** Different quadrants do not meet. *)
Lemma cons_meet i j a b : intersects (i :: a) (j :: b) = true ->
  (fst i < snd j /\ fst j < snd i) /\ (a = [] \/ intersects a b = true).
Proof.
  rewrite !intersects_iff. intros (_ & H). inversion H as [|? ? ? ? M H']; subst. split; [exact M|].
  destruct a as [|k a]; [auto|]. right. split; [discriminate|exact H'].
Qed.

Lemma quadrants_apart b : ForallOrdPairs (fun q r => intersects q r = false) (quadrants b).
Proof.
  assert (App : forall (P : box -> box -> Prop) l m, ForallOrdPairs P l -> ForallOrdPairs P m ->
     (forall x y, In x l -> In y m -> P x y) -> ForallOrdPairs P (l ++ m)).
  { intros P l m Hl Hm X. induction Hl as [|a l Ha Hl IH]; [exact Hm|]. cbn [app]. constructor.
    - apply Forall_app. split; [exact Ha|]. apply Forall_forall. intros y J. apply X; [left; reflexivity|exact J].
    - apply IH. intros x y Jx Jy. apply X; [right; exact Jx|exact Jy]. }
  induction b as [|i b IH]; cbn [quadrants]; [constructor; [constructor|constructor]|].
  assert (Same : forall j, fst j <= snd j \/ True -> ForallOrdPairs (fun q r => intersects q r = false) (map (cons j) (quadrants b))).
  { intros j _. assert (NE : forall q, In q (quadrants b) -> b <> [] -> q <> []).
    { intros q J N ->. apply quadrants_iff in J. inversion J. congruence. }
    destruct b as [|i' b'].
    - cbn [quadrants map]. constructor; constructor.
    - assert (NE' : forall q, In q (quadrants (i' :: b')) -> q <> []) by (intros q J; apply NE; [exact J|discriminate]).
      clear NE App. induction IH as [|q l Hq Hl IHl]; cbn [map]; [constructor|].
      constructor.
      + apply Forall_forall. intros r J. apply in_map_iff in J as (r' & <- & J).
        rewrite Forall_forall in Hq. specialize (Hq r' J).
        destruct (intersects (j :: q) (j :: r')) eqn:E; [|reflexivity].
        apply cons_meet in E as (_ & [E|E]); [|congruence].
        exfalso. apply (NE' q); [left; reflexivity|exact E].
      + apply IHl. intros r J. apply NE'. right. exact J. }
  apply App; auto.
  intros x y Jx Jy. apply in_map_iff in Jx as (x' & <- & _). apply in_map_iff in Jy as (y' & <- & _).
  destruct (intersects _ _) eqn:E; [|reflexivity]. apply cons_meet in E as ((_ & E) & _).
  unfold lower, upper in E. cbn [fst snd] in E. lra.
Qed.

Lemma split_apart b : ForallOrdPairs (fun q r => intersects q r = false) (split_bbox b).
Proof.
  unfold split_bbox. destruct (empty b); [|apply quadrants_apart].
  induction (2 ^ length b)%nat as [|n IH]; cbn [repeat]; constructor; auto.
  apply Forall_forall. intros. reflexivity.
Qed.

(** The sizes are halved. *)
Lemma split_head i b q : In q (split_bbox (i :: b)) -> q = [] \/ exists j q', q = j :: q' /\ size j == size i * (1 # 2).
Proof.
  unfold split_bbox. destruct (empty (i :: b)).
  - intros J. left. apply repeat_spec in J. exact J.
  - intros J. right. apply quadrants_iff in J. inversion J as [|j ? q' ? H _]; subst.
    exists j, q'. split; [reflexivity|]. destruct H as [->| ->]; unfold size, lower, upper, middle, size; cbn [fst snd]; ring.
Qed.
