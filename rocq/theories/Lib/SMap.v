(* std::map<int,T> as the list of its entries in key order. *)
From Coq Require Import ZArith List Lia Bool Sorting.Sorted.
Import ListNotations.
Local Open Scope Z_scope.

Definition smap (T : Type) : Type := list (Z * T).
(* the entries before and from lower_bound(k); upper_bound(k) is lower_bound(k+1) *)
Definition before {T} (k : Z) (m : smap T) : smap T := filter (fun e => fst e <? k) m.
Definition from {T} (k : Z) (m : smap T) : smap T := filter (fun e => k <=? fst e) m.
(* m[k] = v *)
Definition assign {T} (k : Z) (v : T) (m : smap T) : smap T := before k m ++ (k, v) :: from (k + 1) m.
(* m.insert(k, v): an existing entry is kept *)
Definition insert {T} (k : Z) (v : T) (m : smap T) : smap T :=
  match from k m with
  | (k', v') :: _ => if k' =? k then m else assign k v m
  | [] => assign k v m
  end.
Definition erase {T} (k : Z) (m : smap T) : smap T := filter (fun e => negb (fst e =? k)) m.

Definition klt {T} (a b : Z * T) : Prop := fst a < fst b.
Definition keys_sorted {T} (m : smap T) : Prop := StronglySorted klt m.

Lemma in_before {T} k (m : smap T) e : In e (before k m) <-> In e m /\ fst e < k.
Proof. unfold before. rewrite filter_In, Z.ltb_lt. tauto. Qed.
Lemma in_from {T} k (m : smap T) e : In e (from k m) <-> In e m /\ k <= fst e.
Proof. unfold from. rewrite filter_In, Z.leb_le. tauto. Qed.

Lemma before_from {T} k (m : smap T) : keys_sorted m -> m = before k m ++ from k m.
Proof.
  induction m as [|e m IH]; intros S; auto. inversion S as [|? ? S' F]; subst. cbn [before from filter].
  destruct (Z.ltb_spec (fst e) k) as [L|L], (Z.leb_spec k (fst e)) as [L'|L']; try lia.
  - cbn [app]. f_equal. apply IH; auto.
  - assert (B : before k m = []).
    { unfold before. clear IH S S'. induction m as [|e' m IH]; auto. inversion F; subst. cbn [filter].
      destruct (Z.ltb_spec (fst e') k); [unfold klt in *; lia|auto]. }
    unfold before in B. rewrite B. cbn [app]. f_equal. rewrite (IH S') at 1. unfold before. rewrite B. reflexivity.
Qed.

Lemma sorted_app {A} (R : A -> A -> Prop) (l m : list A) :
  StronglySorted R (l ++ m) <-> StronglySorted R l /\ StronglySorted R m /\ (forall a b, In a l -> In b m -> R a b).
Proof.
  induction l as [|x l IH]; cbn [app].
  - split; [intros; split; [constructor|split; [auto|simpl; tauto]]|tauto].
  - split.
    + intros S. inversion S as [|? ? S' F]; subst. apply IH in S'. destruct S' as (S1 & S2 & S3). rewrite Forall_forall in F. split; [|split; auto].
      * constructor; auto. rewrite Forall_forall. intros; apply F, in_or_app; auto.
      * intros a b [<-|Ia] Ib; [apply F, in_or_app; auto|auto].
    + intros (S1 & S2 & S3). inversion S1 as [|? ? S' F]; subst. rewrite Forall_forall in F. constructor.
      * apply IH. split; [auto|split; [auto|]]. intros; apply S3; [right|]; auto.
      * rewrite Forall_forall. intros b Ib. apply in_app_or in Ib. destruct Ib; [auto|apply S3; [left; auto|auto]].
Qed.
Lemma sorted_filter {A} (R : A -> A -> Prop) f (l : list A) : StronglySorted R l -> StronglySorted R (filter f l).
Proof.
  induction l as [|x l IH]; intros S; [constructor|]. inversion S as [|? ? S' F]; subst. cbn [filter]. destruct (f x); auto.
  constructor; auto. rewrite Forall_forall in *. intros b Ib. apply filter_In in Ib. apply F. tauto.
Qed.
(* in a sorted list two different elements are related one way or the other *)
Lemma sorted_two {A} (R : A -> A -> Prop) (l : list A) a b : StronglySorted R l -> In a l -> In b l -> a = b \/ R a b \/ R b a.
Proof.
  induction l as [|x l IH]; intros S Ia Ib; [contradiction|]. inversion S as [|? ? S' F]; subst. rewrite Forall_forall in F.
  destruct Ia as [<-|Ia], Ib as [<-|Ib]; auto.
Qed.
