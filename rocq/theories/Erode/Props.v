From Coq Require Import ZArith List Lia Bool Sorted.
From Verif Require Import Lib.Base Lib.Lists Lib.SMap Blob.Model Blob.Spec Blob.Proofs Erode.Model Erode.Proofs.
Import ListNotations.
Local Open Scope Z_scope.

(* every segment of the blob has a pixel *)
Definition solid (b : blob) : Prop := forall r s, In r (rows b) -> In s r -> fst s < snd s.
(* the rows of the blob lie in an image of n rows *)
Definition fits (n : Z) (b : blob) : Prop := rows b = [] \/ 0 <= by_ b /\ by_ b + nrows b <= n.

Definition mask_ok (d : list emap) (P : Z -> Z -> Prop) : Prop :=
  forall j, 0 <= j < zlen d -> emap_ok (nth (Z.to_nat j) d []) /\ forall x, ecov (nth (Z.to_nat j) d []) x <-> P x j.

Lemma add_rows_ok x0 l : (forall r s, In r l -> In s r -> fst s < snd s) -> forall d y P, mask_ok d P ->
  exists d' o, add_rows d x0 y l = (d', o) /\ zlen d' = zlen d /\
   (l = [] \/ 0 <= y /\ y + zlen l <= zlen d -> o = None /\ mask_ok d' (fun u v => P u v \/ has (Blob x0 y l) u v)) /\
   (~ (l = [] \/ 0 <= y /\ y + zlen l <= zlen d) -> o = Some InputErr).
Proof.
  induction l as [|r t IH]; intros S d y P M; cbn [add_rows].
  - exists d, None. split; [ reflexivity | ]. split; [ reflexivity | ]. split; [ | intros N; exfalso; apply N; auto ]. intros _.
    split; [ reflexivity | ]. intros j J. destruct (M j J) as (A & B). split; [ exact A | ]. intros x. rewrite B. split; [ auto | ].
    intros [H | (k & r & E & _)]; [ exact H | destruct k; discriminate ].
  - fold (zlen d). destruct ((y <? 0) || (zlen d <=? y)) eqn:Q.
    + exists d, (Some InputErr). split; [ reflexivity | ]. split; [ reflexivity | ]. split; [ | reflexivity ].
      intros [H | H]; [ discriminate | ]. rewrite zlen_cons in H. pose proof (zlen_pos t). apply orb_prop in Q.
      destruct Q as [Q | Q]; [ apply Z.ltb_lt in Q | apply Z.leb_le in Q ]; lia.
    + apply orb_false_iff in Q. destruct Q as (Q1 & Q2). apply Z.ltb_ge in Q1. apply Z.leb_gt in Q2.
      destruct (M y ltac:(lia)) as (Oy & Cy).
      destruct (add_segs_ok x0 r (fun s H => S r s (or_introl eq_refl) H) _ Oy) as (m & E & Om & Cm). rewrite E.
      set (P1 := fun u v => P u v \/ v = y /\ covers r (u - x0)).
      assert (M1 : mask_ok (upd d (Z.to_nat y) m) P1).
      { intros j J. rewrite zlen_upd in J. unfold P1. destruct (Z.eq_dec j y) as [X | X].
        - subst j. rewrite upd_nth_eq by (unfold zlen in J; lia). split; [ exact Om | ]. intros x. rewrite Cm, Cy. tauto.
        - rewrite upd_nth_neq by lia. destruct (M j J) as (A & B). split; [ exact A | ]. intros x. rewrite B. tauto. }
      destruct (IH (fun r' s H => S r' s (or_intror H)) _ (y + 1) P1 M1) as (d' & o & E' & L' & G1 & G2).
      rewrite E'. exists d', o. split; [ reflexivity | ]. rewrite zlen_upd in *. split; [ exact L' | ]. rewrite zlen_cons. split.
      * intros [H | H]; [ discriminate | ]. destruct G1 as (Eo & M').
        { destruct t; [ left; reflexivity | right; lia ]. }
        split; [ exact Eo | ]. intros j J. destruct (M' j J) as (A & B). split; [ exact A | ]. intros x. rewrite B. unfold P1.
        rewrite !has_zrow. cbn [rows bx by_]. rewrite zrow_cons. destruct (j - y =? 0) eqn:Q; [ apply Z.eqb_eq in Q | apply Z.eqb_neq in Q ].
        -- rewrite (zrow_out t) by lia. split.
           ++ intros [[H1 | (_ & H1)] | H1]; [ auto | auto | destruct (covers_nil _ H1) ].
           ++ intros [H1 | H1]; [ auto | left; right; split; [ lia | exact H1 ] ].
        -- replace (j - y - 1) with (j - (y + 1)) by lia. split; [ intros [[H1 | (H1 & _)] | H1]; [ auto | lia | auto ] | intros [H1 | H1]; auto ].
      * intros N. apply G2. intros [H | H]; apply N; right.
        -- subst t. unfold zlen at 1. cbn [length]. lia.
        -- lia.
Qed.

Lemma fits_iff n b : fits n b <-> rows b = [] \/ 0 <= by_ b /\ by_ b + zlen (rows b) <= n.
Proof. unfold fits. rewrite nrows_zlen. reflexivity. Qed.

Lemma absorb_blobs_ok l : (forall b, In b l -> solid b) -> forall d P, mask_ok d P -> (forall b, In b l -> fits (zlen d) b) ->
  exists d', absorb_blobs d l = (d', None) /\ zlen d' = zlen d /\ mask_ok d' (fun u v => P u v \/ exists b, In b l /\ has b u v).
Proof.
  induction l as [|b t IH]; intros S d P M F; cbn [absorb_blobs].
  - exists d. split; [ reflexivity | ]. split; [ reflexivity | ]. intros j J. destruct (M j J) as (A & B). split; [ exact A | ]. intros x. rewrite B.
    split; [ auto | ]. intros [H | (b & [] & _)]; exact H.
  - unfold absorb_blob. destruct (add_rows_ok (bx b) (rows b) (S b (or_introl eq_refl)) d (by_ b) P M) as (d1 & o & E & L & G & _).
    destruct (G (proj1 (fits_iff _ _) (F b (or_introl eq_refl)))) as (-> & M1). rewrite E.
    destruct (IH (fun b' H => S b' (or_intror H)) d1 _ M1) as (d2 & E2 & L2 & M2).
    { rewrite L. intros b' H. apply F. right; exact H. }
    exists d2. split; [ exact E2 | ]. split; [ lia | ]. intros j J. destruct (M2 j J) as (A & B). split; [ exact A | ]. intros x. rewrite B.
    assert (Eta : Blob (bx b) (by_ b) (rows b) = b) by (destruct b; reflexivity). rewrite Eta. split.
    + intros [[H | H] | (b' & I & H)]; [ auto | right; exists b; split; [ left; reflexivity | exact H ] | right; exists b'; split; [ right; exact I | exact H ] ].
    + intros [H | (b' & [I | I] & H)]; [ auto | subst b'; auto | right; exists b'; auto ].
Qed.

Lemma new_mask_ok n : mask_ok (new_mask n) (fun _ _ => False).
Proof.
  intros j J. unfold new_mask. rewrite nth_repeat. split; [ split; [ constructor | intros ? ? [] ] | ].
  intros x. split; [ intros (e & s & [] & _) | intros [] ].
Qed.
Lemma zlen_new n : 0 <= n -> zlen (new_mask n) = n.
Proof. intros H. unfold zlen, new_mask. rewrite repeat_length. lia. Qed.

(* C26: a view over an image of n rows that has absorbed any list of blobs reads
   blank on their pixels and the underlying image everywhere else *)
Theorem erode_reads {A} (blank : A) (under : Z -> Z -> A) n l : 0 <= n ->
  (forall b, In b l -> solid b /\ fits n b) ->
  exists d, absorb_blobs (new_mask n) l = (d, None) /\
   forall i j, 0 <= j < n ->
     ((exists b, In b l /\ has b i j) -> read blank under d i j = Ok blank) /\
     (~ (exists b, In b l /\ has b i j) -> read blank under d i j = Ok (under i j)).
Proof.
  intros N H. destruct (absorb_blobs_ok l (fun b I => proj1 (H b I)) (new_mask n) _ (new_mask_ok n)) as (d & E & L & M).
  { rewrite zlen_new by exact N. intros b I. apply (H b I). }
  rewrite zlen_new in L by exact N. exists d. split; [ exact E | ]. intros i j J.
  destruct (M j ltac:(lia)) as (O & C). pose proof (from_first i _ O) as F. unfold read. fold (zlen d).
  destruct ((j <? 0) || (zlen d <=? j)) eqn:Q.
  { apply orb_prop in Q. destruct Q as [Q | Q]; [ apply Z.ltb_lt in Q | apply Z.leb_le in Q ]; lia. }
  specialize (C i). split; intros X.
  - assert (Cv : ecov (nth (Z.to_nat j) d []) i) by (apply C; right; exact X).
    destruct (from i (nth (Z.to_nat j) d [])) as [|(e, s) t]; [ contradiction | ]. destruct (i <? s); [ contradiction | reflexivity ].
  - assert (Cv : ~ ecov (nth (Z.to_nat j) d []) i) by (intros Y; apply C in Y; destruct Y as [[] | Y]; contradiction).
    destruct (from i (nth (Z.to_nat j) d [])) as [|(e, s) t]; [ reflexivity | ]. destruct (i <? s); [ reflexivity | contradiction ].
Qed.

(* C26: the stored segments stay disjoint and at least one column apart, so that
   no two of them could be joined *)
Theorem erode_segments_apart n l : 0 <= n -> (forall b, In b l -> solid b /\ fits n b) ->
  forall d o m, absorb_blobs (new_mask n) l = (d, o) -> In m d ->
  forall e1 s1 e2 s2, In (e1, s1) m -> In (e2, s2) m -> s1 <= e1 /\ ((e1, s1) = (e2, s2) \/ e1 + 1 < s2 \/ e2 + 1 < s1).
Proof.
  intros N H d o m E I e1 s1 e2 s2 I1 I2. destruct (absorb_blobs_ok l (fun b I => proj1 (H b I)) (new_mask n) _ (new_mask_ok n)) as (d' & E' & L & M).
  { rewrite zlen_new by exact N. intros b Ib. apply (H b Ib). }
  rewrite E in E'. injection E' as -> ->. destruct (In_nth _ _ [] I) as (k & K & Ek).
  destruct (M (Z.of_nat k)) as (O & _); [ unfold zlen; split; [ lia | apply inj_lt, K ] | ]. rewrite Nat2Z.id in O. assert (Om : emap_ok m) by (rewrite <- Ek; exact O). clear O. rename Om into O.
  split; [ apply (proj2 O), I1 | ]. destruct O as (S & _). destruct (sorted_two sep m _ _ S I1 I2) as [X | [X | X]]; unfold sep in X; cbn in X; auto.
Qed.

(* C26: a blob that sticks out of the image at the top or bottom is refused *)
Theorem erode_rejects n l b : 0 <= n -> (forall b', In b' l -> solid b' /\ fits n b') -> solid b -> ~ fits n b ->
  forall d, absorb_blobs (new_mask n) l = (d, None) -> snd (absorb_blob d b) = Some InputErr.
Proof.
  intros N H S F d E. destruct (absorb_blobs_ok l (fun b I => proj1 (H b I)) (new_mask n) _ (new_mask_ok n)) as (d' & E' & L & M).
  { rewrite zlen_new by exact N. intros b' Ib. apply (H b' Ib). }
  rewrite E in E'. injection E' as <-. rewrite zlen_new in L by exact N.
  unfold absorb_blob. destruct (add_rows_ok (bx b) (rows b) S d (by_ b) _ M) as (d1 & o & E1 & _ & _ & G). rewrite E1. cbn [snd].
  apply G. rewrite L. intros X. apply F, fits_iff, X.
Qed.

(* ... but the rows before the one at fault stay masked *)
Theorem erode_rejected_partially_refuted :
  exists b d', solid b /\ ~ fits 1 b /\ absorb_blob (new_mask 1) b = (d', Some InputErr) /\
    read 0 (fun _ _ => 7) (new_mask 1) 2 0 = Ok 7 /\ read 0 (fun _ _ => 7) d' 2 0 = Ok 0.
Proof.
  exists (Blob 2 0 [[(0, 1)]; [(0, 1)]]), [[(2, 2)]]. split; [ | split; [ | split; [ reflexivity | split; reflexivity ] ] ].
  - intros r s [R | [R | []]] S; subst r; destruct S as [S | []]; subst s; cbn; lia.
  - intros [X | X]; [ discriminate | ]. cbn in X. lia.
Qed.

(* a non-trivial case: three blobs that join up into one segment *)
Definition ex_blobs : list blob := [Blob 1 0 [[(0, 2); (5, 7)]]; Blob 9 0 [[(0, 1)]; [(0, 3)]]; Blob 2 0 [[(0, 5)]]].
Example ex_blobs_ok : forall b, In b ex_blobs -> solid b /\ fits 2 b.
Proof.
  intros b [B | [B | [B | []]]]; subst b; (split; [ | right; cbn; lia ]); intros r s R S;
    repeat (destruct R as [R | R]; [ subst r; repeat (destruct S as [S | S]; [ subst s; cbn; lia | ]); destruct S | ]); destruct R.
Qed.
Example ex_erode : absorb_blobs (new_mask 2) ex_blobs = ([[(7, 1); (9, 9)]; [(11, 9)]], None).
Proof. reflexivity. Qed.

Print Assumptions erode_reads.
Print Assumptions erode_segments_apart.
Print Assumptions erode_rejects.
Print Assumptions erode_rejected_partially_refuted.
