(* C25: sparse composites. *)
From Coq Require Import ZArith List Lia Bool Sorting.Sorted.
From Verif Require Import Lib.Base Lib.Img Lib.SMap Sparse.Model Sparse.Spec Sparse.Proofs.
Import ListNotations.
Local Open Scope Z_scope.

Section P.
Context {A : Type}.
Implicit Types (s : @sview A) (q : placed A).

Definition holds s (stored : Z -> Z -> A -> Prop) : Prop :=
  forall j, clean (srow s j) /\ forall i v, covers (srow s j) i v <-> stored i j v.

Lemma shifted_covers (l : list (Z * list A)) x0 i v :
  covers l (i - x0) v <-> exists e d, In (e, d) l /\ seg_has (e + x0) d i v.
Proof.
  unfold covers, seg_has. split; intros (e & d & I & B & N); exists e, d; (split; [auto|]); (split; [lia|]); rewrite <- N; f_equal; lia.
Qed.

Lemma absorb_row_free s x0 j : 0 <= j < srows s -> forall l s',
  srows s' = srows s -> Forall (fun q : Z * list A => snd q <> []) l -> StronglySorted apart l -> clean (srow s' j) ->
  (forall i v w, covers l (i - x0) v -> ~ covers (srow s' j) i w) ->
  exists s'', absorb_row s' x0 j l = (s'', Ok tt) /\ srows s'' = srows s' /\ under s'' = under s' /\
    (forall k, k <> j -> srow s'' k = srow s' k) /\ clean (srow s'' j) /\
    forall i v, covers (srow s'' j) i v <-> covers (srow s' j) i v \/ covers l (i - x0) v.
Proof.
  intros HJ. induction l as [|[e d] l IH]; intros s' SR F S C FREE.
  - exists s'. simpl. repeat split; auto; try apply C. intros [H|(? & ? & [] & _)]; auto.
  - inversion F as [|? ? F1 F2]; inversion S as [|? ? S' G]; subst. cbn [absorb_row].
    replace ((j <? 0) || (srows s' <=? j)) with false.
    2:{ symmetry. apply orb_false_iff. rewrite Z.ltb_ge, Z.leb_gt. lia. }
    destruct (absorb_seg_free (srow s' j) (e + x0) d C F1) as (m & E & CM & KM).
    { intros i v B. destruct (seg_has_some (e + x0) d i B) as (w & H). apply (FREE i w v). apply shifted_covers. exists e, d. split; [left|]; auto. }
    rewrite E. destruct (IH (set_row s' j m)) as (s'' & E' & R' & U' & O' & C' & K'); auto.
    + cbn [srow set_row]. rewrite Z.eqb_refl. auto.
    + intros i v w H. cbn [srow set_row]. rewrite Z.eqb_refl, KM. intros [K|[B K]].
      * apply (FREE i v w); auto. apply covers_cons. auto.
      * apply shifted_covers in H. destruct H as (e1 & d1 & I1 & B1 & N1). rewrite Forall_forall in G. specialize (G _ I1). unfold apart in G. simpl in G. lia.
    + exists s''. split; auto. split; [rewrite R'; auto|]. split; [rewrite U'; auto|]. split; [|split; [auto|]].
      * intros k NK. rewrite O' by auto. cbn [srow set_row]. destruct (Z.eqb_spec k j); congruence.
      * intros i v. rewrite K'. cbn [srow set_row]. rewrite Z.eqb_refl, KM, covers_cons.
        assert (Q : seg_has (e + x0) d i v <-> seg_has e d (i - x0) v).
        { pose proof (shifted_covers [(e, d)] x0 i v) as Q. rewrite covers_cons in Q. split.
          - intros H. destruct Q as [_ Q]. destruct Q as [Q|(? & ? & [] & _)]; auto. exists e, d. split; [left|]; auto.
          - intros H. destruct Q as [Q _]. destruct Q as (e1 & d1 & [I1|[]] & H1); auto. inversion I1; subst; auto. }
        rewrite Q. tauto.
Qed.

Lemma absorb_rows_free x0 y0 (p : img (option A)) : 0 <= y0 -> 0 <= icols p -> forall n r s stored,
  0 <= r -> r + Z.of_nat n <= irows p -> y0 + irows p <= srows s -> holds s stored ->
  (forall i j v w, r <= j - y0 < r + Z.of_nat n -> shows (x0, y0, p) i j v -> ~ stored i j w) ->
  exists s', absorb_rows s x0 y0 p n r = (s', Ok tt) /\ srows s' = srows s /\ under s' = under s /\
    holds s' (fun i j v => stored i j v \/ r <= j - y0 < r + Z.of_nat n /\ shows (x0, y0, p) i j v).
Proof.
  intros HY HC. induction n as [|n IH]; intros r s stored HR HN HS H FREE.
  - exists s. simpl. split; auto. split; auto. split; auto. intros j. destruct (H j) as [C K]. split; auto. intros i v. rewrite K. split; [auto|intros [|[]]; auto; lia].
  - cbn [absorb_rows]. destruct (runs_spec (fun c => pix p c r) (icols p) HC) as (RF & RS & RK).
    assert (SH : forall i v, covers (runs (fun c => pix p c r) (icols p)) (i - x0) v <-> shows (x0, y0, p) i (y0 + r) v).
    { intros i v. rewrite <- RK. unfold row_shows, shows, inside. replace (y0 + r - y0) with r by lia. split; intros; repeat split; try tauto; lia. }
    destruct (absorb_row_free s x0 (y0 + r) ltac:(lia) (runs (fun c => pix p c r) (icols p)) s eq_refl RF RS) as (s1 & E1 & R1 & U1 & O1 & C1 & K1).
    { apply H. }
    { intros i v w V W. apply SH in V. destruct (H (y0 + r)) as [_ K]. apply K in W. apply (FREE i (y0 + r) v w); auto. lia. }
    rewrite E1. destruct (IH (r + 1) s1 (fun i j v => stored i j v \/ j = y0 + r /\ shows (x0, y0, p) i j v)) as (s2 & E2 & R2 & U2 & H2); try lia.
    + intros j. destruct (Z.eq_dec j (y0 + r)) as [->|NJ].
      * split; auto. intros i v. rewrite K1, SH. destruct (H (y0 + r)) as [_ K]. rewrite K. tauto.
      * rewrite O1 by auto. destruct (H j) as [C K]. split; auto. intros i v. rewrite K. split; [auto|]. intros [|[? _]]; [auto|congruence].
    + intros i j v w B V [W|[W _]]; [|lia]. apply (FREE i j v w); auto. lia.
    + exists s2. split; auto. split; [congruence|]. split; [congruence|]. intros j. destruct (H2 j) as [C K]. split; auto. intros i v. rewrite K. split.
      * intros [[?|[-> ?]]|[? ?]]; auto; right; (split; [lia|auto]).
      * intros [?|[B V]]; auto. destruct (Z.eq_dec j (y0 + r)); [left; right; auto|right; split; [lia|auto]].
Qed.

Lemma absorb_free s q stored : not_behind q -> holds s stored -> (forall i j v w, shows q i j v -> ~ stored i j w) ->
  exists s', absorb s (fst (fst q)) (snd (fst q)) (snd q) = (s', Ok tt) /\ srows s <= srows s' /\ under s' = under s /\
    holds s' (fun i j v => stored i j v \/ shows q i j v).
Proof.
  destruct q as [[x0 y0] p]. cbn [fst snd]. intros (X & Y & HC & HR) H FREE. unfold absorb.
  set (s1 := if srows s <? y0 + irows p then SView (y0 + irows p) (srow s) (under s) else s).
  assert (S1 : srow s1 = srow s /\ under s1 = under s /\ srows s <= srows s1 /\ y0 + irows p <= srows s1).
  { subst s1. destruct (Z.ltb_spec (srows s) (y0 + irows p)); simpl; repeat split; auto; lia. }
  destruct S1 as (A1 & A2 & A3 & A4).
  destruct (absorb_rows_free x0 y0 p Y HC (Z.to_nat (irows p)) 0 s1 stored) as (s' & E & R' & U' & H'); try lia.
  - intros j. rewrite A1. apply H.
  - intros i j v w _ V. apply (FREE i j v w V).
  - exists s'. split; auto. split; [lia|]. split; [congruence|]. intros j. destruct (H' j) as [C K]. split; auto. intros i v. rewrite K.
    split; [tauto|]. intros [?|V]; auto. right. split; auto. pose proof V as [B _]. unfold inside in B. lia.
Qed.

Lemma absorb_all_free : forall l s stored,
  Forall not_behind l -> ForallOrdPairs disjoint l -> holds s stored -> (forall q i j v w, In q l -> shows q i j v -> ~ stored i j w) ->
  exists s', absorb_all s l = (s', repeat (Ok tt) (length l)) /\ srows s <= srows s' /\ under s' = under s /\
    holds s' (fun i j v => stored i j v \/ exists q, In q l /\ shows q i j v).
Proof.
  induction l as [|q l IH]; intros s stored NB D H FREE.
  - exists s. simpl. split; auto. split; [lia|]. split; auto. intros j. destruct (H j) as [C K]. split; auto. intros i v. rewrite K. split; [auto|intros [|(? & [] & _)]; auto].
  - inversion NB; subst. inversion D as [|? ? D1 D2]; subst. rewrite Forall_forall in D1.
    destruct (absorb_free s q stored) as (s1 & E1 & R1 & U1 & H1'); auto.
    { intros i j v w V. apply (FREE q i j v w); [left|]; auto. }
    destruct (IH s1 _ H3 D2 H1') as (s2 & E2 & R2 & U2 & H2').
    { intros q' i j v w I V [W|W]; [apply (FREE q' i j v w); [right|..]; auto|]. apply (D1 q' I i j w v W V). }
    exists s2. destruct q as [[x0 y0] p]. cbn [absorb_all fst snd] in *. rewrite E1, E2. split; [reflexivity|]. split; [lia|]. split; [congruence|].
    intros j. destruct (H2' j) as [C K]. split; auto. intros i v. rewrite K. split.
    + intros [[?|?]|(q' & I & V)]; auto; right; [exists (x0, y0, p); split; [left|]; auto|exists q'; split; [right|]; auto].
    + intros [?|(q' & [<-|I] & V)]; auto. right. exists q'. auto.
Qed.

Lemma read_holds s stored i j : holds s stored -> 0 <= j < srows s ->
  (forall v, stored i j v -> read s i j = Ok v) /\ ((forall v, ~ stored i j v) -> read s i j = Ok (under s i j)).
Proof.
  intros H HJ. destruct (H j) as [C K]. destruct (read_clean (srow s j) i C) as [R1 R2]. unfold read.
  replace ((j <? 0) || (srows s <=? j)) with false by (symmetry; apply orb_false_iff; rewrite Z.ltb_ge, Z.leb_gt; lia).
  split.
  - intros v V. apply K in V. destruct (R1 v V) as (k & d & r & E & [B N]). rewrite E. destruct (Z.ltb_spec i (k - zlen d)); [lia|].
    unfold at_. destruct (Z.ltb_spec (i - (k - zlen d)) 0); [lia|]. rewrite N. auto.
  - intros NV. destruct (from (i + 1) (srow s j)) as [|[k d] r] eqn:E; auto. destruct (Z.ltb_spec i (k - zlen d)); auto.
    exfalso. destruct (R2 k d r eq_refl ltac:(lia)) as (v & _ & CV). apply K in CV. apply (NV v CV).
Qed.

(* Patches with pairwise disjoint valid pixels are all accepted; afterwards a
   pixel of a patch reads the patch, every other pixel the underlying image. *)
Theorem sparse_reads rows (u : Z -> Z -> A) ps :
  Forall not_behind ps -> ForallOrdPairs disjoint ps ->
  exists s, absorb_all (create rows u) ps = (s, repeat (Ok tt) (length ps)) /\
    forall i j, 0 <= j < rows ->
      (forall q v, In q ps -> shows q i j v -> read s i j = Ok v) /\
      ((forall q v, In q ps -> ~ shows q i j v) -> read s i j = Ok (u i j)).
Proof.
  intros NB D.
  assert (H0 : holds (create rows u) (fun _ _ _ => False)).
  { intros j. simpl. split; [split; constructor|]. intros i v. split; [intros (? & ? & [] & _)|tauto]. }
  destruct (absorb_all_free ps (create rows u) (fun _ _ _ => False) NB D H0 ltac:(tauto)) as (s & E & R & U & H).
  exists s. split; auto. intros i j HJ. destruct (read_holds s _ i j H) as [R1 R2]; [simpl in R; lia|]. split.
  - intros q v I V. apply R1. right. exists q. auto.
  - intros NV. rewrite R2; [rewrite U; auto|]. intros v [[]|(q & I & V)]. apply (NV q v I V).
Qed.

Lemma absorb_seg_outcome m e (d : list A) : (exists m', absorb_seg m e d = Ok m') \/ absorb_seg m e d = Throw NoImplErr.
Proof.
  unfold absorb_seg. destruct (from e m) as [|[k dd] r]; [left; eauto|]. destruct (rev (before e m)) as [|[pk pd] pr].
  - destruct (k - zlen dd <? e); auto. destruct (e =? k - zlen dd); left; eauto.
  - destruct ((e - zlen d <? pk) || (k - zlen dd <? e)); auto. destruct (e =? k - zlen dd); left; eauto.
Qed.

Lemma absorb_row_outcome x0 j : forall l s, 0 <= j < srows s -> exists s', srows s' = srows s /\ (forall k, k <> j -> srow s' k = srow s k) /\
  (absorb_row s x0 j l = (s', Ok tt) \/ absorb_row s x0 j l = (s', Throw NoImplErr)).
Proof.
  induction l as [|[e d] l IH]; intros s HJ; [exists s; simpl; auto|]. cbn [absorb_row].
  replace ((j <? 0) || (srows s <=? j)) with false by (symmetry; apply orb_false_iff; rewrite Z.ltb_ge, Z.leb_gt; lia).
  destruct (absorb_seg_outcome (srow s j) (e + x0) d) as [(m & E)|E]; rewrite E; [|exists s; auto].
  destruct (IH (set_row s j m) HJ) as (s' & R & O & P). exists s'. split; auto. split; auto.
  intros k NK. rewrite O by auto. cbn [srow set_row]. destruct (Z.eqb_spec k j); congruence.
Qed.

Lemma absorb_row_overlap s x0 j : forall (l : list (Z * list A)) s', 0 <= j < srows s' ->
  Forall (fun q : Z * list A => snd q <> []) l -> StronglySorted apart l -> clean (srow s' j) ->
  (exists i v w, covers l (i - x0) v /\ covers (srow s' j) i w) ->
  (exists i w, covers (srow s' j) i w /\ Forall (fun q : Z * list A => fst q + x0 <= i + 1) l) ->
  exists s'', absorb_row s' x0 j l = (s'', Throw NoImplErr).
Proof.
  induction l as [|[e d] l IH]; intros s' HJ F S C (i & v & w & V & W) (i1 & w1 & W1 & B1); [destruct V as (? & ? & [] & _)|].
  inversion F as [|? ? F1 F2]; inversion S as [|? ? S' G]; inversion B1 as [|? ? B2 B3]; subst. cbn [absorb_row].
  replace ((j <? 0) || (srows s' <=? j)) with false by (symmetry; apply orb_false_iff; rewrite Z.ltb_ge, Z.leb_gt; lia).
  destruct (absorb_seg_outcome (srow s' j) (e + x0) d) as [(m & E)|E]; rewrite E; [|eauto].
  assert (FR : forall i v, e + x0 - zlen d <= i < e + x0 -> ~ covers (srow s' j) i v).
  { intros i2 v2 B CV. rewrite (absorb_seg_overlap (srow s' j) (e + x0) d i2 v2) in E; auto; [discriminate|]. exists i1, w1. simpl in B2. split; auto. }
  destruct (absorb_seg_free (srow s' j) (e + x0) d C F1 FR) as (m' & E' & CM & KM). rewrite E in E'. inversion E'; subst m'.
  apply IH; auto; try (cbn [srow set_row]; rewrite Z.eqb_refl; auto).
  - exists i, v, w. split; [|apply KM; auto]. apply covers_cons in V. destruct V as [[B N]|V]; auto. exfalso. apply (FR i w); auto. lia.
  - exists i1, w1. split; [apply KM; auto|auto].
Qed.

Lemma run_end_le (row : Z -> option A) n : 0 <= n -> Forall (fun q : Z * list A => fst q <= n) (runs row n).
Proof.
  intros HN. destruct (runs_spec row n HN) as (F & S & K). rewrite Forall_forall in *. intros [e d] I. specialize (F _ I). simpl in *.
  pose proof (zlen_pos d F). destruct (seg_has_some e d (e - 1)) as (v & H'); [lia|].
  assert (CV : covers (runs row n) (e - 1) v) by (exists e, d; auto). apply K in CV. destruct CV. lia.
Qed.

Lemma absorb_rows_overlap x0 y0 (p : img (option A)) : 0 <= y0 -> 0 <= icols p -> forall n r s i j v w,
  0 <= r -> r + Z.of_nat n <= irows p -> y0 + irows p <= srows s -> r <= j - y0 < r + Z.of_nat n ->
  clean (srow s j) -> shows (x0, y0, p) i j v -> covers (srow s j) i w ->
  (exists i1 w1, covers (srow s j) i1 w1 /\ x0 + icols p <= i1 + 1) ->
  exists s', absorb_rows s x0 y0 p n r = (s', Throw NoImplErr).
Proof.
  intros HY HC. induction n as [|n IH]; intros r s i j v w HR HN HS HJ C V W X; [lia|]. cbn [absorb_rows].
  destruct (Z.eq_dec j (y0 + r)) as [->|NJ].
  - destruct (runs_spec (fun c => pix p c r) (icols p) HC) as (RF & RS & RK).
    destruct (absorb_row_overlap s x0 (y0 + r) (runs (fun c => pix p c r) (icols p)) s) as (s' & E); auto; try lia.
    + exists i, v, w. split; auto. apply RK. unfold shows, inside in V. replace (y0 + r - y0) with r in V by lia. split; tauto.
    + destruct X as (i1 & w1 & W1 & L). exists i1, w1. split; auto. pose proof (run_end_le (fun c => pix p c r) (icols p) HC) as RE.
      rewrite Forall_forall in *. intros q I. specialize (RE q I). lia.
    + rewrite E. eauto.
  - destruct (absorb_row_outcome x0 (y0 + r) (runs (fun c => pix p c r) (icols p)) s ltac:(lia)) as (s' & R & O & [E|E]); rewrite E; [|eauto].
    destruct (IH (r + 1) s' i j v w) as (s'' & E'); auto; try lia; try (rewrite O by auto; auto). eauto.
Qed.

(* A patch overlapping stored data is rejected if its row also holds data at or
   to the right of the last column of the patch. *)
Theorem sparse_rejects_overlap rows (u : Z -> Z -> A) ps q i j v q1 w q2 i2 w2 :
  Forall not_behind ps -> ForallOrdPairs disjoint ps -> not_behind q ->
  shows q i j v -> In q1 ps -> shows q1 i j w ->
  In q2 ps -> shows q2 i2 j w2 -> fst (fst q) + icols (snd q) <= i2 + 1 ->
  exists s', absorb (fst (absorb_all (create rows u) ps)) (fst (fst q)) (snd (fst q)) (snd q) = (s', Throw NoImplErr).
Proof.
  intros NB D NQ V I1 W1 I2 W2 L.
  assert (H0 : holds (create rows u) (fun _ _ _ => False)).
  { intros k. simpl. split; [split; constructor|]. intros i0 v0. split; [intros (? & ? & [] & _)|tauto]. }
  destruct (absorb_all_free ps (create rows u) (fun _ _ _ => False) NB D H0 ltac:(tauto)) as (s & E & R & U & H).
  rewrite E. cbn [fst]. destruct q as [[x0 y0] p]. cbn [fst snd] in *. destruct NQ as (X & Y & HC & HR).
  destruct (H j) as [C K]. unfold absorb.
  set (s1 := if srows s <? y0 + irows p then SView (y0 + irows p) (srow s) (under s) else s).
  assert (S1 : srow s1 = srow s /\ y0 + irows p <= srows s1).
  { subst s1. destruct (Z.ltb_spec (srows s) (y0 + irows p)); simpl; (split; [auto|lia]). }
  destruct S1 as [A1 A2]. pose proof V as [B _]. unfold inside in B.
  apply (absorb_rows_overlap x0 y0 p Y HC (Z.to_nat (irows p)) 0 s1 i j v w); auto; try lia.
  - rewrite A1. auto.
  - rewrite A1. apply K. right. exists q1. auto.
  - exists i2, w2. rewrite A1. split; [|auto]. apply K. right. exists q2. auto.
Qed.
End P.
Print Assumptions sparse_reads.
Print Assumptions sparse_rejects_overlap.

Definition bar (n : Z) (v : Z) : img (option Z) := Img n 1 (fun _ _ => Some v).
Definition blank : Z -> Z -> Z := fun _ _ => 0.

(* three patches, the second with holes, the third filling one of them and
   touching the first *)
Example sparse_ex :
  let ps := [(0, 0, bar 2 1); (4, 0, of_rows None [[Some 5; None; Some 6]; [None; Some 7; None]]); (2, 0, bar 2 3)] in
  Forall not_behind ps /\ ForallOrdPairs disjoint ps /\
  map (fun i => read (fst (absorb_all (create 2 blank) ps)) i 0) (zrange 0 8) = map Ok [1;1;3;3;5;0;6;0].
Proof.
  split; [repeat constructor; simpl; lia|]. split; [|vm_compute; reflexivity].
  repeat constructor; intros i j v v'; unfold shows, inside; simpl; intros [A B] [C D]; try lia.
Qed.

Example sparse_reject_ex :
  not_behind (1, 0, bar 2 9) /\ shows (1, 0, bar 2 9) 1 0 9 /\ shows (0, 0, bar 2 1) 1 0 1 /\ shows (4, 0, bar 2 5) 5 0 5 /\ 1 + icols (bar 2 9) <= 5 + 1 /\
  snd (absorb (fst (absorb_all (create 2 blank) [(0, 0, bar 2 1); (4, 0, bar 2 5)])) 1 0 (bar 2 9)) = Throw NoImplErr.
Proof. vm_compute. repeat split; discriminate || reflexivity. Qed.

(* The property fails when nothing lies to the right: an overlapping patch is
   accepted, and the overlap keeps its old value. *)
Theorem sparse_overlap_accepted_refuted :
  let '(s1, r1) := absorb (create 1 blank) 0 0 (bar 3 1) in
  let '(s2, r2) := absorb s1 2 0 (bar 3 2) in
  r1 = Ok tt /\ r2 = Ok tt /\ shows (0, 0, bar 3 1) 2 0 1 /\ shows (2, 0, bar 3 2) 2 0 2 /\ read s2 2 0 = Ok 1.
Proof. vm_compute. repeat split; discriminate || reflexivity. Qed.

(* It may also lose pixels of the new patch that no earlier patch covers. *)
Theorem sparse_lost_patch_refuted :
  let '(s1, r1) := absorb (create 1 blank) 3 0 (bar 2 1) in
  let '(s2, r2) := absorb s1 0 0 (bar 10 2) in
  r1 = Ok tt /\ r2 = Ok tt /\ shows (0, 0, bar 10 2) 0 0 2 /\ (forall v, ~ shows (3, 0, bar 2 1) 0 0 v) /\ read s2 0 0 = Ok 0.
Proof.
  vm_compute absorb. split; [reflexivity|]. split; [reflexivity|]. split; [|split; [|vm_compute; reflexivity]].
  - vm_compute. repeat split; discriminate || reflexivity.
  - intros v [H _]. unfold inside in H. simpl in H. lia.
Qed.

(* A rejected patch is absorbed in part. *)
Theorem sparse_rejected_partially_refuted :
  let '(s1, r1) := absorb (create 2 blank) 0 1 (bar 3 1) in
  let '(s2, r2) := absorb s1 0 0 (Img 2 2 (fun _ _ => Some 2)) in
  r1 = Ok tt /\ r2 = Throw NoImplErr /\ read s1 0 0 = Ok 0 /\ read s2 0 0 = Ok 2.
Proof. vm_compute. repeat split. Qed.
Print Assumptions sparse_lost_patch_refuted.
