(* Sorting, loading, partitions and writing chips. *)
From Coq Require Import ZArith QArith Qcanon List Lia Bool Permutation Sorted.
From Verif Require Import Lib.Base Lib.Img Chip.Model Chip.Spec.
Import ListNotations.
Local Open Scope Z_scope.

Lemma qlt_true a b : qlt a b = true -> (a <= b)%Qc.
Proof. unfold qlt. destruct (a ?= b)%Qc eqn:E; try discriminate. intros _. apply Qclt_le_weak. now apply Qclt_alt. Qed.
Lemma qlt_false a b : qlt a b = false -> (b <= a)%Qc.
Proof. unfold qlt. destruct (a ?= b)%Qc eqn:E; try discriminate; intros _. - apply Qceq_alt in E. subst. apply Qcle_refl. - apply Qclt_le_weak. now apply Qcgt_alt in E. Qed.

(** sorting *)
Lemma insert_perm r l : Permutation (insert r l) (r :: l).
Proof. induction l as [|s l IH]; cbn [insert]; auto. destruct (qlt (pos s) (pos r)); auto. rewrite IH. apply perm_swap. Qed.
Lemma sort_perm l : Permutation (stable_sort l) l.
Proof. induction l as [|r l IH]; cbn [stable_sort]; auto. rewrite insert_perm. now constructor. Qed.
Definition ple (a b : ref) : Prop := (pos a <= pos b)%Qc.
Lemma insert_sorted r l : StronglySorted ple l -> StronglySorted ple (insert r l).
Proof.
  induction 1 as [|s l S IH F]; cbn [insert]; [repeat constructor|]. destruct (qlt (pos s) (pos r)) eqn:E.
  - constructor; auto. rewrite Forall_forall. intros t I. apply (Permutation_in _ (insert_perm r l)) in I as [<-|I]; [now apply qlt_true|]. now apply (proj1 (Forall_forall _ _) F).
  - apply qlt_false in E. constructor; [now constructor|]. constructor; auto. eapply Forall_impl; [|exact F]. intros t T. eapply Qcle_trans; eauto.
Qed.
Lemma sort_sorted l : StronglySorted ple (stable_sort l).
Proof. induction l; cbn [stable_sort]; [constructor|now apply insert_sorted]. Qed.

Lemma sorted_nth {A} (R : A -> A -> Prop) d : (forall x, R x x) -> forall l, StronglySorted R l -> forall i j, (i <= j < length l)%nat -> R (nth i l d) (nth j l d).
Proof.
  intros Rf. induction 1 as [|x l S IH F]; intros i j L; cbn [length] in *; [lia|]. destruct i, j; cbn [nth]; try lia; auto.
  - apply (proj1 (Forall_forall _ _) F). apply nth_In. lia.
  - apply IH. lia.
Qed.

(** arrays *)
Lemma vget_ok v i : 0 <= i < size v -> vget v i = Ok (el v i).
Proof. intros H. unfold vget. destruct (Z.leb_spec 0 i), (Z.ltb_spec i (size v)); auto; lia. Qed.
Lemma vset_ok v i r : 0 <= i < size v -> vset v i r = Ok (Vec (size v) (fun j => if j =? i then r else el v j)).
Proof. intros H. unfold vset. destruct (Z.leb_spec 0 i), (Z.ltb_spec i (size v)); auto; lia. Qed.

Definition elems (v : vec) (a b : Z) : list ref := map (el v) (zrange a b).
Definition pts (v : vec) (a b : Z) : list Z := map (fun i => pt (el v i)) (zrange a b).
Lemma map_zrange_nth {A} (f : Z -> A) d l a : (forall i, (i < length l)%nat -> nth i l d = f (a + Z.of_nat i)) -> l = map f (zrange a (a + Z.of_nat (length l))).
Proof.
  revert a. induction l as [|x l IH]; intros a H; cbn [length].
  - rewrite zrange_nil by lia. reflexivity.
  - rewrite zrange_cons by lia. cbn [map]. f_equal.
    + specialize (H 0%nat ltac:(cbn; lia)). cbn [nth] in H. rewrite H. f_equal. lia.
    + rewrite (IH (a + 1)) at 1; [do 2 f_equal; lia|]. intros i L. specialize (H (S i) ltac:(cbn; lia)). cbn [nth] in H. rewrite H. f_equal. lia.
Qed.
Lemma of_list_elems l : elems (of_list l) 0 (size (of_list l)) = l.
Proof. unfold elems, of_list. cbn [size el]. symmetry. pose proof (map_zrange_nth (fun i => nth (Z.to_nat i) l blank) blank l 0) as H. cbn beta in H. rewrite Z.add_0_l in H. apply H. intros i L. f_equal. lia. Qed.
Lemma sort_size v : 0 <= size v -> size (sort v) = size v.
Proof. intros H. unfold sort, of_list. cbn [size]. rewrite (Permutation_length (sort_perm _)), map_length, zrange_length. lia. Qed.
Lemma sort_elems v : 0 <= size v -> Permutation (elems (sort v) 0 (size v)) (elems v 0 (size v)).
Proof. intros H. rewrite <- (sort_size v H) at 1. unfold sort. rewrite of_list_elems. apply sort_perm. Qed.
Lemma sort_order v i j : 0 <= i <= j -> j < size (sort v) -> (pos (el (sort v) i) <= pos (el (sort v) j))%Qc.
Proof.
  intros H L. unfold sort, of_list in *. cbn [size el] in *. apply (sorted_nth ple blank); [intros x; apply Qcle_refl|apply sort_sorted|lia].
Qed.
Lemma sort_in v i : 0 <= i < size v -> exists j, 0 <= j < size v /\ el (sort v) i = el v j.
Proof.
  intros H. assert (I : In (el (sort v) i) (elems (sort v) 0 (size v))) by (apply in_map; now apply in_zrange).
  apply (Permutation_in _ (sort_elems v ltac:(lia))) in I. apply in_map_iff in I as (j & E & I). apply in_zrange in I. eauto.
Qed.

(** the arrays of both directions *)
Definition linked (a b : vec) (L R : Z) : Prop := forall i, L <= i < R ->
  L <= oi (el a i) < R /\ oi (el b (oi (el a i))) = i /\ pt (el b (oi (el a i))) = pt (el a i).
Definition ranked (f : Z -> Qc) (a : vec) (L R : Z) : Prop :=
  (forall i, L <= i < R -> pos (el a i) = f (pt (el a i))) /\ forall i j, L <= i <= j -> j < R -> (pos (el a i) <= pos (el a j))%Qc.

Lemma nodup_map_inj {A} (f : Z -> A) a b : NoDup (map f (zrange a b)) -> forall i j, a <= i < b -> a <= j < b -> f i = f j -> i = j.
Proof.
  intros N i j I J E. destruct (Z.lt_trichotomy i j) as [H|[H|H]]; auto; exfalso.
  - rewrite (zrange_app a j b), map_app in N by lia. rewrite (zrange_cons j b) in N by lia. cbn [map] in N. apply NoDup_remove_2 in N. apply N. apply in_or_app. left.
    rewrite <- E. apply in_map. apply in_zrange. lia.
  - rewrite (zrange_app a i b), map_app in N by lia. rewrite (zrange_cons i b) in N by lia. cbn [map] in N. apply NoDup_remove_2 in N. apply N. apply in_or_app. left.
    rewrite E. apply in_map. apply in_zrange. lia.
Qed.
Lemma inj_nodup_map {A} (f : Z -> A) a b : (forall i j, a <= i < b -> a <= j < b -> f i = f j -> i = j) -> NoDup (map f (zrange a b)).
Proof.
  intros H. assert (G : forall l, NoDup l -> (forall x, In x l -> a <= x < b) -> NoDup (map f l)).
  { induction 1 as [|x l NI N IH]; intros I; cbn [map]; constructor.
    - intros M. apply in_map_iff in M as (y & E & Iy). apply NI. replace x with y; auto. apply H; auto. all: apply I; cbn; auto.
    - apply IH. intros y Iy. apply I. now right. }
  apply G; [apply zrange_nodup|]. intros x. apply in_zrange.
Qed.

Lemma linked_perm a b L R : linked a b L R -> linked b a L R -> Permutation (pts a L R) (pts b L R).
Proof.
  intros A B. assert (E : pts b L R = map (fun i => pt (el a i)) (map (fun i => oi (el b i)) (zrange L R))).
  { unfold pts. rewrite map_map. apply map_ext_in. intros i I. apply in_zrange in I. symmetry. now apply B. }
  rewrite E. apply Permutation_map. apply NoDup_Permutation; [apply zrange_nodup| |].
  - apply inj_nodup_map. intros i j I J Q. destruct (B i I) as (_ & B1 & _), (B j J) as (_ & B2 & _). congruence.
  - intros x. rewrite in_zrange, in_map_iff. split.
    + intros I. destruct (A x I) as (A1 & A2 & _). exists (oi (el a x)). split; auto. now apply in_zrange.
    + intros (i & <- & I). apply in_zrange in I. now apply B.
Qed.

Lemma loaded buffer : exists xvec yvec spare, load buffer = Ok (xvec, yvec, spare) /\
  let n := Z.of_nat (length buffer) in size xvec = n /\ size yvec = n /\ size spare = n /\
  linked xvec yvec 0 n /\ linked yvec xvec 0 n /\ ranked (X buffer) xvec 0 n /\ ranked (Y buffer) yvec 0 n /\ Permutation (pts xvec 0 n) (zrange 0 n).
Proof.
  unfold load. cbn zeta. set (n := Z.of_nat (length buffer)). set (x0 := sort _). match goal with |- context[for_up 0 n ?f ?s] => set (y0 := s) end.
  match type of x0 with _ => set (rx := Vec n (fun i => Ref (px (nth (Z.to_nat i) buffer origin)) i (-1))) in x0 end.
  assert (Sx : size x0 = n) by (unfold x0; rewrite sort_size; cbn [rx size]; unfold n; lia).
  assert (Px : Permutation (pts x0 0 n) (zrange 0 n)).
  { replace (pts x0 0 n) with (map pt (elems x0 0 n)) by (unfold elems, pts; now rewrite map_map). unfold x0.
    change n with (size rx) at 1. rewrite (sort_elems rx) by (cbn; unfold n; lia). unfold elems. rewrite map_map. cbn [rx el size pt]. now rewrite map_id. }
  assert (Ix : forall i, 0 <= i < n -> 0 <= pt (el x0 i) < n).
  { intros i I. apply in_zrange. apply (Permutation_in _ Px). apply (in_map (fun i => pt (el x0 i))). now apply in_zrange. }
  assert (Jx : forall i j, 0 <= i < n -> 0 <= j < n -> pt (el x0 i) = pt (el x0 j) -> i = j).
  { apply (nodup_map_inj (fun i => pt (el x0 i))). apply (Permutation_NoDup (Permutation_sym Px)). apply zrange_nodup. }
  assert (Ox : forall p, 0 <= p < n -> exists k, 0 <= k < n /\ pt (el x0 k) = p).
  { intros p I. apply in_zrange in I. apply (Permutation_in _ (Permutation_sym Px)) in I. apply in_map_iff in I as (k & E & K). apply in_zrange in K. eauto. }
  assert (Vx : forall i, 0 <= i < n -> pos (el x0 i) = X buffer (pt (el x0 i))).
  { intros i I. destruct (sort_in rx i I) as (j & J & E). fold x0 in E. rewrite E. reflexivity. }
  (* first loop *)
  match goal with |- context[for_up 0 n ?f y0] => set (body := f) end.
  destruct (for_up_inv (fun i y => size y = n /\ (forall j, 0 <= j < n -> pos (el y j) = Y buffer j /\ pt (el y j) = j) /\ (forall k, 0 <= k < i -> oi (el y (pt (el x0 k))) = k)) body 0 n y0)
    as (y1 & E1 & S1 & V1 & O1).
  { unfold n. lia. }
  { split; [reflexivity|]. split; [|intros; lia]. intros j J. split; reflexivity. }
  { intros i y I (S & V & O). unfold body. rewrite vget_ok by lia. cbn [bind]. specialize (Ix i I). rewrite vget_ok by lia. cbn [bind]. rewrite vset_ok by lia. eexists. split; [reflexivity|].
    cbn [size el]. split; auto. split.
    - intros j J. destruct (Z.eqb_spec j (pt (el x0 i))) as [->|]; [cbn [set_oi pos pt]; apply V; lia|now apply V].
    - intros k K. destruct (Z.eqb_spec (pt (el x0 k)) (pt (el x0 i))) as [E|NE].
      + apply Jx in E; try lia. cbn [set_oi oi]. lia.
      + apply O. assert (k <> i) by (intros ->; congruence). lia. }
  rewrite E1. cbn [bind]. clear E1 body.
  (* the sorted second array *)
  set (y2 := sort y1). assert (S2 : size y2 = n) by (unfold y2; rewrite sort_size; lia).
  assert (In2 : forall i, 0 <= i < n -> pos (el y2 i) = Y buffer (pt (el y2 i)) /\ 0 <= pt (el y2 i) < n /\ 0 <= oi (el y2 i) < n /\ pt (el x0 (oi (el y2 i))) = pt (el y2 i)).
  { intros i I. destruct (sort_in y1 i ltac:(lia)) as (j & J & E). fold y2 in E. rewrite S1 in J. destruct (V1 j J) as [Va Vb]. destruct (Ox j J) as (k & K & Ek).
    specialize (O1 k K). rewrite Ek in O1. rewrite E, Va, Vb, O1. auto. }
  assert (P2 : Permutation (pts y2 0 n) (zrange 0 n)).
  { replace (pts y2 0 n) with (map pt (elems y2 0 n)) by (unfold elems, pts; now rewrite map_map). unfold y2. rewrite <- S1. rewrite (sort_elems y1) by lia.
    unfold elems. rewrite map_map, S1. rewrite (map_ext_in _ (fun i => i)); [now rewrite map_id|]. intros j J. apply in_zrange in J. now apply V1. }
  assert (J2 : forall i j, 0 <= i < n -> 0 <= j < n -> oi (el y2 i) = oi (el y2 j) -> i = j).
  { intros i j I J E. destruct (In2 i I) as (_ & _ & _ & A), (In2 j J) as (_ & _ & _ & B).
    apply (nodup_map_inj (fun i => pt (el y2 i)) 0 n); auto; [apply (Permutation_NoDup (Permutation_sym P2)); apply zrange_nodup|congruence]. }
  assert (O2 : forall p, 0 <= p < n -> exists k, 0 <= k < n /\ pt (el y2 k) = p).
  { intros p I. apply in_zrange in I. apply (Permutation_in _ (Permutation_sym P2)) in I. apply in_map_iff in I as (k & E & K). apply in_zrange in K. eauto. }
  match goal with |- context[for_up 0 n ?f x0] => set (body := f) end.
  destruct (for_up_inv (fun i x => size x = n /\ (forall j, 0 <= j < n -> pos (el x j) = pos (el x0 j) /\ pt (el x j) = pt (el x0 j)) /\ (forall k, 0 <= k < i -> oi (el x (oi (el y2 k))) = k)) body 0 n x0)
    as (x1 & E3 & S3 & V3 & O3).
  { unfold n. lia. }
  { split; auto. split; [auto|intros; lia]. }
  { intros i x I (S & V & O). unfold body. rewrite vget_ok by lia. cbn [bind]. destruct (In2 i I) as (_ & _ & R & _). rewrite vget_ok by lia. cbn [bind]. rewrite vset_ok by lia. eexists. split; [reflexivity|].
    cbn [size el]. split; auto. split.
    - intros j J. destruct (Z.eqb_spec j (oi (el y2 i))) as [->|]; [cbn [set_oi pos pt]; apply V; lia|now apply V].
    - intros k K. destruct (Z.eqb_spec (oi (el y2 k)) (oi (el y2 i))) as [E|NE].
      + apply J2 in E; try lia. cbn [set_oi oi]. lia.
      + apply O. assert (k <> i) by (intros ->; congruence). lia. }
  rewrite E3. cbn [bind]. eexists _, _, _. split; [reflexivity|]. split; auto. split; auto. split; [reflexivity|].
  assert (L1 : linked y2 x1 0 n).
  { intros i I. destruct (In2 i I) as (A & B & C & D). split; auto. split; [now apply O3|]. rewrite (proj2 (V3 _ C)). exact D. }
  split; [|split; [exact L1|]].
  - intros k K. destruct (O2 (pt (el x0 k)) (Ix k K)) as (i & I & E). destruct (L1 i I) as (A & B & C).
    assert (Q : oi (el y2 i) = k). { apply Jx; auto. rewrite (proj2 (V3 _ A)) in C. congruence. }
    rewrite Q in *. rewrite B. split; auto. 
  - split; [|split; [|]].
    + split.
      * intros i I. destruct (V3 i I) as [-> ->]. now apply Vx.
      * intros i j IJ L. rewrite (proj1 (V3 i ltac:(lia))), (proj1 (V3 j ltac:(lia))). apply sort_order; auto. fold x0. lia.
    + split; [intros i I; now apply In2|]. intros i j IJ L. apply sort_order; auto. fold y2. lia.
    + replace (pts x1 0 n) with (pts x0 0 n); auto. apply map_ext_in. intros i I. apply in_zrange in I. symmetry. now apply V3.
Qed.
