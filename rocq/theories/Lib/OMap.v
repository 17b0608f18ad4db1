(** std::map with keys of any type: lists of entries, sorted by the key. *)
From Coq Require Import List ZArith Lia Bool Sorting.Sorted.
Import ListNotations.

Definition strict_order {K} (ltb : K -> K -> bool) : Prop :=
  (forall a, ltb a a = false) /\
  (forall a b c, ltb a b = true -> ltb b c = true -> ltb a c = true) /\
  (forall a b, ltb a b = false -> ltb b a = false -> a = b).

Section OMap.
Context {K : Type} (ltb : K -> K -> bool).

Definition keqb (a b : K) : bool := negb (ltb a b) && negb (ltb b a).

Fixpoint get {V} (k : K) (m : list (K * V)) : option V :=
  match m with
  | [] => None
  | (k', v) :: m => if keqb k k' then Some v else get k m
  end.

(** m[k] = f(m[k]), where operator[] puts in [d] if there is no entry. *)
Fixpoint modify {V} (k : K) (d : V) (f : V -> V) (m : list (K * V)) : list (K * V) :=
  match m with
  | [] => [(k, f d)]
  | (k', v) :: m =>
      if ltb k k' then (k, f d) :: (k', v) :: m
      else if ltb k' k then (k', v) :: modify k d f m
      else (k', f v) :: m
  end.

Definition put {V} (k : K) (v : V) (m : list (K * V)) : list (K * V) := modify k v (fun _ => v) m.

Definition ordered {V} (m : list (K * V)) : Prop := StronglySorted (fun a b => ltb (fst a) (fst b) = true) m.

Hypothesis O : strict_order ltb.

Lemma keqb_spec a b : reflect (a = b) (keqb a b).
Proof.
  destruct O as (I & T & E). unfold keqb. destruct (ltb a b) eqn:A; cbn [negb andb].
  - constructor. intros ->. rewrite I in A. discriminate.
  - destruct (ltb b a) eqn:B; cbn [negb]; constructor; auto. intros ->. rewrite I in B. discriminate.
Qed.
Lemma keqb_refl a : keqb a a = true.
Proof. destruct (keqb_spec a a); congruence. Qed.

Lemma get_none {V} k (m : list (K * V)) : get k m = None <-> ~ In k (map fst m).
Proof.
  induction m as [|[k' v] m IH]; cbn [get map fst In]; [split; auto|].
  destruct (keqb_spec k k') as [<-|N]; [split; [discriminate|intros X; exfalso; apply X; now left]|].
  rewrite IH. split; [intros X [E|E]; [congruence|auto]|intros X E; apply X; now right].
Qed.
Lemma get_in {V} k v (m : list (K * V)) : get k m = Some v -> In (k, v) m.
Proof.
  induction m as [|[k' v'] m IH]; cbn [get In]; [discriminate|].
  destruct (keqb_spec k k') as [<-|N]; [intros [= ->]; now left|right; auto].
Qed.

Lemma modify_keys {V} k d f (m : list (K * V)) x : In x (map fst (modify k d f m)) <-> x = k \/ In x (map fst m).
Proof.
  induction m as [|[k' v] m IH]; cbn [modify map fst In]; [firstorder congruence|].
  destruct (ltb k k') eqn:A; [cbn [map fst In]; firstorder congruence|].
  destruct (ltb k' k) eqn:B; cbn [map fst In]; [rewrite IH; firstorder congruence|].
  assert (k = k') by (apply O; auto). subst. firstorder congruence.
Qed.

Lemma ordered_cons {V} k v (m : list (K * V)) : ordered ((k, v) :: m) <-> ordered m /\ forall x, In x (map fst m) -> ltb k x = true.
Proof.
  unfold ordered. split.
  - intros S. inversion S as [|? ? S' F]; subst. split; auto. rewrite Forall_forall in F. intros x I. apply in_map_iff in I.
    destruct I as (e & <- & I). apply (F e I).
  - intros (S & F). constructor; auto. apply Forall_forall. intros e I. apply F, in_map, I.
Qed.

Lemma modify_ordered {V} k d f (m : list (K * V)) : ordered m -> ordered (modify k d f m).
Proof.
  destruct O as (I & T & E).
  induction m as [|[k' v] m IH]; intros S; cbn [modify].
  - apply ordered_cons. split; [constructor|intros x []].
  - destruct (ltb k k') eqn:A; [|destruct (ltb k' k) eqn:B].
    + apply ordered_cons. split; auto. apply ordered_cons in S. intros x [<-|IX]; auto. cbn [fst]. eapply T; [exact A|]. now apply S.
    + apply ordered_cons in S. apply ordered_cons. split; [apply IH, S|]. intros x IX. apply modify_keys in IX.
      destruct IX as [->|IX]; auto. now apply S.
    + apply ordered_cons in S. apply ordered_cons. exact S.
Qed.

Lemma get_modify {V} k d f (m : list (K * V)) k' : ordered m ->
  get k' (modify k d f m) = if keqb k' k then Some (f match get k m with Some v => v | None => d end) else get k' m.
Proof.
  destruct O as (I & T & E).
  induction m as [|[k1 v] m IH]; intros S; cbn [modify get].
  - destruct (keqb k' k); reflexivity.
  - apply ordered_cons in S. destruct S as (S & L).
    destruct (ltb k k1) eqn:A; [|destruct (ltb k1 k) eqn:B]; cbn [get].
    + destruct (keqb_spec k' k) as [->|N]; auto.
      destruct (keqb_spec k k1) as [->|N1]; [rewrite I in A; discriminate|].
      assert (G : get k m = None).
      { apply get_none. intros X. specialize (L k X). pose proof (T _ _ _ A L) as Y. rewrite I in Y. discriminate. }
      now rewrite G.
    + rewrite IH by auto. destruct (keqb_spec k k1) as [->|N1]; [rewrite I in B; discriminate|].
      destruct (keqb_spec k' k) as [->|N]; [|reflexivity]. destruct (keqb_spec k k1); [congruence|reflexivity].
    + assert (k = k1) by auto. subst k1. rewrite keqb_refl. destruct (keqb_spec k' k); reflexivity.
Qed.

Lemma get_put {V} k (v : V) m k' : ordered m -> get k' (put k v m) = if keqb k' k then Some v else get k' m.
Proof. intros S. unfold put. now rewrite get_modify. Qed.
Lemma put_ordered {V} k (v : V) m : ordered m -> ordered (put k v m).
Proof. apply modify_ordered. Qed.

Lemma in_get {V} k (v : V) m : ordered m -> In (k, v) m -> get k m = Some v.
Proof.
  destruct O as (I & T & E).
  induction m as [|[k1 v1] m IH]; intros S IN; [destruct IN|]. apply ordered_cons in S. destruct S as (S & L). cbn [get].
  destruct IN as [IN|IN]; [injection IN as -> ->; now rewrite keqb_refl|].
  destruct (keqb_spec k k1) as [->|N]; auto. exfalso. apply (in_map fst) in IN. cbn [fst] in IN. apply L in IN. rewrite I in IN. discriminate.
Qed.

Lemma ordered_nodup {V} (m : list (K * V)) : ordered m -> NoDup (map fst m).
Proof.
  destruct O as (I & T & E).
  induction m as [|[k v] m IH]; intros S; cbn [map fst]; [constructor|]. apply ordered_cons in S. destruct S as (S & L).
  constructor; auto. intros X. apply L in X. rewrite I in X. discriminate.
Qed.

(** A map is determined by its entries. *)
Lemma ordered_ext {V} : forall m n : list (K * V), ordered m -> ordered n -> (forall k, get k m = get k n) -> m = n.
Proof.
  destruct O as (I & T & E).
  assert (H : forall k (m : list (K * V)), ordered m -> (forall x, In x (map fst m) -> ltb k x = true) -> get k m = None).
  { intros k m S L. apply get_none. intros X. apply L in X. rewrite I in X. discriminate. }
  induction m as [|[k v] m IH]; intros [|[k' v'] n] S S' G; auto.
  - specialize (G k'). cbn [get] in G. rewrite keqb_refl in G. discriminate.
  - specialize (G k). cbn [get] in G. rewrite keqb_refl in G. discriminate.
  - apply ordered_cons in S. apply ordered_cons in S'. destruct S as (S & L), S' as (S' & L').
    assert (EK : k = k').
    { apply E.
      - destruct (ltb k k') eqn:A; auto. exfalso. pose proof (G k) as GK. cbn [get] in GK. rewrite keqb_refl in GK.
        destruct (keqb_spec k k') as [->|N]; [rewrite I in A; discriminate|]. symmetry in GK. apply get_in, (in_map fst) in GK. cbn [fst] in GK.
        apply L' in GK. pose proof (T _ _ _ A GK) as X. rewrite I in X. discriminate.
      - destruct (ltb k' k) eqn:A; auto. exfalso. pose proof (G k') as GK. cbn [get] in GK. rewrite keqb_refl in GK.
        destruct (keqb_spec k' k) as [->|N]; [rewrite I in A; discriminate|]. apply get_in, (in_map fst) in GK. cbn [fst] in GK.
        apply L in GK. pose proof (T _ _ _ A GK) as X. rewrite I in X. discriminate. }
    subst k'. f_equal.
    + pose proof (G k) as GK. cbn [get] in GK. rewrite keqb_refl in GK. congruence.
    + apply IH; auto. intros x. pose proof (G x) as GX. cbn [get] in GX. destruct (keqb_spec x k) as [EX|N]; [rewrite EX|exact GX].
      rewrite (H k m S L), (H k n S' L'). reflexivity.
Qed.
End OMap.

(** Orders of the keys that are used. *)
Definition pair_ltb {A B} (la : A -> A -> bool) (lb : B -> B -> bool) (x y : A * B) : bool :=
  la (fst x) (fst y) || (negb (la (fst y) (fst x)) && lb (snd x) (snd y)).

Lemma Z_order : strict_order Z.ltb.
Proof. split; [intros a; apply Z.ltb_irrefl|]. split; intros; rewrite ?Z.ltb_lt, ?Z.ltb_ge in *; lia. Qed.

Lemma pair_order {A B} (la : A -> A -> bool) (lb : B -> B -> bool) :
  strict_order la -> strict_order lb -> strict_order (pair_ltb la lb).
Proof.
  intros (IA & TA & EA) (IB & TB & EB). unfold pair_ltb. split; [|split].
  - intros [a b]. cbn [fst snd]. now rewrite IA, IB.
  - intros [a b] [a1 b1] [a2 b2]. cbn [fst snd]. rewrite !orb_true_iff, !andb_true_iff, !negb_true_iff. intros [L1|(L1 & M1)] [L2|(L2 & M2)].
    + left. eauto.
    + left. destruct (la a1 a2) eqn:Q; [eauto|]. assert (a1 = a2) by auto. now subst.
    + left. destruct (la a a1) eqn:Q; [eauto|]. assert (a = a1) by auto. now subst.
    + destruct (la a a1) eqn:Q1.
      * left. destruct (la a1 a2) eqn:Q; [eauto|]. assert (a1 = a2) by auto. now subst.
      * assert (a = a1) by auto. subst a1. destruct (la a a2) eqn:Q; [now left|]. right. split; auto. eauto.
  - intros [a b] [a1 b1]. cbn [fst snd]. rewrite !orb_false_iff, !andb_false_iff, !negb_false_iff.
    intros (L1 & M1) (L2 & M2). assert (a = a1) by auto. subst a1. f_equal. rewrite IA in *. apply EB; destruct M1, M2; auto; discriminate.
Qed.
