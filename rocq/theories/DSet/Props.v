(* C20: the disjoint set structure represents exactly the partition generated
   by the calls made so far. *)
From Coq Require Import List Arith Lia Bool.
From Verif Require Import Lib.Base Lib.Lists DSet.Model DSet.Spec DSet.Proofs.
Import ListNotations.

(* After any sequence of calls, looking up two elements, in this order, ends
   with two sets that are equal exactly if the elements were put together,
   directly or through others.  The set found is itself an element put together
   with the one looked up, and looking up changes no stored value. *)
Theorem ds_partition {T} eqb (h : heap T) E x y :
  history eqb h E -> x < length h -> y < length h ->
  exists s h1 t h2, find h (Some x) = Ok (s, h1) /\ find h1 (Some y) = Ok (t, h2) /\
    (s = t <-> linked E x y) /\ linked E x s /\
    map (@val T) h2 = map (@val T) h.
Proof.
  intros H LX LY. pose proof (history_good eqb h E H) as G. destruct G as [V I P].
  destruct (find_ok h x V LX) as (s & h1 & F1 & R1 & V1 & S1).
  destruct (find_ok h1 y V1) as (t & h2 & F2 & R2 & V2 & S2); [rewrite (s_len _ _ S1); auto|].
  exists s, h1, t, h2. split; auto. split; auto.
  assert (R2' : rep h y t) by (eapply same_back; eauto).
  split; [apply P; auto|]. split.
  - apply (P x s s s); auto. eapply rep_self; eauto.
  - pose proof (s_val _ _ S1). pose proof (s_val _ _ S2). unfold vals in *. congruence.
Qed.

(* No call loops or touches a wrong pointer: with pointers handed out before,
   looking up succeeds, and joining or adding to a set either succeeds or
   raises ArgumentErr, the latter exactly for pointers that are no longer (or
   never were) the representative of their set. *)
Theorem ds_calls {T} eqb (h : heap T) E :
  history eqb h E ->
  (forall x, x < length h -> exists s h', find h (Some x) = Ok (s, h') /\ history eqb h' E /\ length h' = length h) /\
  (forall s1 s2, s1 < length h -> s2 < length h ->
     (exists r h', combine h (Some s1) (Some s2) = Ok (r, h') /\ (r = s1 \/ r = s2) /\
        exists h1 h2, find h (Some s1) = Ok (s1, h1) /\ find h (Some s2) = Ok (s2, h2)) \/
     (combine h (Some s1) (Some s2) = Throw ArgumentErr /\
        exists s r h', (s = s1 \/ s = s2) /\ find h (Some s) = Ok (r, h') /\ r <> s)) /\
  (forall v s, s < length h ->
     (exists h', insert_in h v (Some s) = Ok (length h, h') /\ exists h1, find h (Some s) = Ok (s, h1)) \/
     (insert_in h v (Some s) = Throw ArgumentErr /\ exists r h1, find h (Some s) = Ok (r, h1) /\ r <> s)).
Proof.
  intros H. pose proof (history_good eqb h E H) as G. destruct G as [V I P].
  assert (RT : forall s, s < length h -> exists n, nth_error h s = Some n /\
    ((par n = None /\ assert_set h (Some s) = Ok s /\ exists h1, find h (Some s) = Ok (s, h1)) \/
     (assert_set h (Some s) = Throw ArgumentErr /\ exists r h1, find h (Some s) = Ok (r, h1) /\ r <> s))).
  { intros s L. destruct (nth_error_ex _ _ L) as (n & En). exists n. split; auto.
    destruct (find_ok h s V L) as (r & h1 & F & R & _). unfold assert_set, deref. rewrite En. cbn [bind].
    destruct (par n) as [p|] eqn:Pn.
    - right. split; auto. exists r, h1. split; auto. intros ->. destruct R as (k & R).
      destruct (rooted_root _ _ _ _ R) as (m & Em & Pm). congruence.
    - left. split; auto. split; auto. exists h1. rewrite F. do 2 f_equal. eapply (rep_det h s); eauto.
      exists 0. eapply rt0; eauto. }
  split; [|split].
  - intros x L. destruct (find_ok h x V L) as (s & h1 & F & _ & _ & S1). exists s, h1. split; auto.
    split; [eapply h_find; eauto|apply (s_len _ _ S1)].
  - intros s1 s2 L1 L2. destruct (RT s1 L1) as (n1 & E1 & [(P1 & A1 & h1 & F1)|(A1 & r1 & h1 & F1 & N1)]).
    + destruct (RT s2 L2) as (n2 & E2 & [(P2 & A2 & h2 & F2)|(A2 & r2 & h2 & F2 & N2)]).
      * left. destruct (combine_total h s1 s2) as (r & h' & C); [exists 0; eapply rt0; eauto|exists 0; eapply rt0; eauto|].
        exists r, h'. split; auto. split; [|eauto]. destruct (combine_spec _ _ _ _ _ V C) as (_ & _ & X & _). auto.
      * right. unfold combine. rewrite A1, A2. simpl. split; auto. exists s2, r2, h2. auto.
    + right. unfold combine. rewrite A1. simpl. split; auto. exists s1, r1, h1. auto.
  - intros v s L. destruct (RT s L) as (n & En & [(Pn & A & h1 & F)|(A & r & h1 & F & N)]); unfold insert_in; rewrite A; simpl; [left|right]; eauto 6.
Qed.

(* Looking up takes at most 1 + log2 n steps up, n the number of elements. *)
Theorem ds_log_depth {T} eqb (h : heap T) E x :
  history eqb h E -> x < length h -> exists s, climb (S (Nat.log2 (length h))) h x = Ok s.
Proof.
  intros H L. pose proof (g_inv _ _ (history_good eqb h E H)) as V. destruct (i_all _ V x L) as (r & k & R).
  exists r. eapply climb_ok; eauto. destruct (rooted_root _ _ _ _ R) as (m & Em & Pm).
  destruct (nth_error_ex _ _ L) as (n & En). destruct (rooted_depth _ _ _ _ V R _ _ En Em) as [A _].
  pose proof (rank_log _ _ _ V Em Pm) as B. apply Nat.log2_le_pow2 in B; lia.
Qed.

(* Looking up by value: the set of the first element inserted with that value,
   null if there is none. *)
Theorem ds_find_value {T} eqb (h : heap T) E v :
  history eqb h E ->
  (find_val eqb h v = Ok (None, h) /\ forall n, In n h -> eqb (val n) v = false) \/
  (exists i s h' n, find_val eqb h v = Ok (Some s, h') /\ find h (Some i) = Ok (s, h') /\
     nth_error h i = Some n /\ eqb (val n) v = true /\
     forall j m, j < i -> nth_error h j = Some m -> eqb (val m) v = false).
Proof.
  intros H. pose proof (g_inv _ _ (history_good eqb h E H)) as V. unfold find_val.
  assert (F : forall (l : heap T) k, match first_with eqb l v k with
    | None => forall n, In n l -> eqb (val n) v = false
    | Some i => k <= i /\ exists n, nth_error l (i - k) = Some n /\ eqb (val n) v = true /\
        forall j m, j < i - k -> nth_error l j = Some m -> eqb (val m) v = false end).
  { induction l as [|a l IH]; intros k; simpl; [intros n []|]. destruct (eqb (val a) v) eqn:EV.
    - split; [lia|]. rewrite Nat.sub_diag. exists a. split; auto. split; auto. intros; lia.
    - specialize (IH (S k)). destruct (first_with eqb l v (S k)) as [i|].
      + destruct IH as (A & n & B & C & D). split; [lia|]. exists n.
        replace (i - k) with (S (i - S k)) by lia. split; auto. split; auto.
        intros j m Lj Ej. destruct j; simpl in Ej; [congruence|]. apply (D j m); auto. lia.
      + intros n [<-|Hn]; auto. }
  specialize (F h 0). destruct (first_with eqb h v 0) as [i|]; [right|left; auto].
  destruct F as (_ & n & A & B & C). rewrite Nat.sub_0_r in *.
  destruct (find_ok h i V) as (s & h' & F & _); [eauto using nth_error_lt|].
  exists i, s, h', n. rewrite F. simpl. auto.
Qed.

(* The rank does not bound the depth: an element inserted into a one-element
   set is one step below a root of rank 0. *)
Theorem ds_rank_bounds_depth_refuted :
  exists (h : heap nat) E n, history Nat.eqb h E /\ nth_error h 0 = Some n /\
    (exists s, climb 1 h 1 = Ok s) /\ rank n = 0 /\ climb (rank n) h 1 = UB NoTerm.
Proof.
  exists [Node 7 None 0; Node 8 (Some 0) 0], [(1, 0)], (Node 7 None 0). split; [|vm_compute; eauto].
  eapply (h_insert_in _ [Node 7 None 0] [] 8 0 1); [|reflexivity].
  apply (h_insert Nat.eqb [] [] 7). constructor.
Qed.

(* Five elements, three unions with lookups between; two sets remain. *)
Example ds_ex : exists h : heap nat, history Nat.eqb h [(0, 2); (2, 3); (0, 1)] /\ length h = 5 /\
  exists h1 h2, find h (Some 1) = Ok (0, h1) /\ find h (Some 3) = Ok (0, h2) /\ exists h3, find h (Some 4) = Ok (4, h3).
Proof.
  assert (H0 : history Nat.eqb (fold_left (fun h v => snd (insert h v)) [10; 11; 12; 13; 14] []) []).
  { cbn -[insert]. repeat apply h_insert. constructor. }
  assert (ST : forall (h : heap nat) E a b r h', history Nat.eqb h E -> combine h (Some a) (Some b) = Ok (r, h') -> history Nat.eqb h' ((a, b) :: E))
    by (intros; eapply h_combine; eauto).
  pose proof (ST _ _ 0 1 _ _ H0 eq_refl) as H1.
  pose proof (ST _ _ 2 3 _ _ H1 eq_refl) as H2.
  pose proof (ST _ _ 0 2 _ _ H2 eq_refl) as H3.
  eexists. split; [exact H3|]. vm_compute. eauto 8.
Qed.

Print Assumptions ds_partition.
Print Assumptions ds_calls.
Print Assumptions ds_log_depth.
Print Assumptions ds_find_value.
Print Assumptions ds_rank_bounds_depth_refuted.
