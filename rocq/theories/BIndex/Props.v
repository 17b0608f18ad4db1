From Coq Require Import ZArith List Lia Bool Relations.
From Verif Require Import Lib.Base Lib.Lists Lib.Img Blob.Model Blob.Spec Blob.Proofs Blob.Props.
From Verif Require Import BIndex.Model BIndex.Spec BIndex.Label BIndex.Rle BIndex.Comp.
Import ListNotations.
Local Open Scope Z_scope.

(* a connected components function, as boost documents it *)
Definition finds_components (cc : Z -> list (Z * Z) -> (Z -> Z) * Z) : Prop :=
  forall n es, 1 <= n -> (forall a b, In (a, b) es -> 0 <= a < n /\ 0 <= b < n) -> components n es (fst (cc n es)) (snd (cc n es)).

(* C27: the blobs are exactly the sets of valid pixels joined to each other, each
   listed once and well formed; the label image marks exactly the valid pixels,
   and pixels with equal labels are joined *)
Theorem blob_index_components cc planes m : finds_components cc -> planes <= 1 -> 1 <= icols m -> 1 <= irows m ->
  exists labels bl, blob_index cc planes m = Ok (labels, bl) /\
    (forall b, In b bl -> exists P, Built b P /\ exists x y, valid m x y /\ forall u v, P u v <-> joined m x y u v) /\
    (forall x y, valid m x y -> exists i b, nth_error bl i = Some b /\ has b x y /\
       forall j b', nth_error bl j = Some b' -> has b' x y -> j = i) /\
    icols labels = icols m /\ irows labels = irows m /\
    (forall x y, inside m x y -> (pix labels x y <> 0 <-> valid m x y)) /\
    (forall x y u v, valid m x y -> valid m u v -> pix labels x y = pix labels u v -> joined m x y u v).
Proof.
  intros CC Pl C R. unfold blob_index. assert (Q : (1 <? planes) = false) by (apply Z.ltb_ge; lia). rewrite Q.
  destruct (label_image_ok m C R) as (s & E & L). rewrite E. cbn [bind].
  specialize (CC (count_ s) (edges s) (li_count _ _ _ L)). destruct (cc (count_ s) (edges s)) as [comp k]. cbn [fst snd] in CC.
  destruct CC as (Cr & Co & C0 & Cl).
  { intros a b H. destruct (li_edge _ _ _ L _ _ H) as (x & y & u & v & _ & V1 & _ & V2 & <- & <- & _).
    pose proof (li_lab _ _ _ L x y I V1). pose proof (li_lab _ _ _ L u v I V2). lia. }
  pose proof (li_count _ _ _ L) as Cn.
  assert (Dz : forall x y, inside m x y -> (pix (dst s) x y <> 0 <-> valid m x y)).
  { intros x y Ix. split.
    - intros N. destruct (pix m x y) eqn:P; [ split; assumption | ]. exfalso. apply N, (li_zero _ _ _ L x y Ix). intros (_ & _ & X). congruence.
    - intros Vx. pose proof (li_lab _ _ _ L x y I Vx). lia. }
  assert (Kr : forall x y, valid m x y -> 1 <= comp (pix (dst s) x y) < k).
  { intros x y Vx. pose proof (li_lab _ _ _ L x y I Vx) as Lx. pose proof (Cr (pix (dst s) x y) ltac:(lia)) as Rx.
    destruct (Z.eq_dec (comp (pix (dst s) x y)) 0) as [Z | Z]; [ | lia ]. exfalso.
    assert (H : linked (edges s) 0 (pix (dst s) x y)) by (apply Cl; lia). apply (linked_zero m s _ L) in H. lia. }
  assert (Kj : forall x y u v, valid m x y -> valid m u v -> (comp (pix (dst s) x y) = comp (pix (dst s) u v) <-> joined m x y u v)).
  { intros x y u v V1 V2. pose proof (li_lab _ _ _ L x y I V1). pose proof (li_lab _ _ _ L u v I V2). rewrite Cl by lia. apply linked_iff; assumption. }
  destruct (rle_ok m (dst s) comp k (li_cols _ _ _ L) (li_rows _ _ _ L) Dz Kr Kj ltac:(lia) ltac:(lia)) as (bl & Eb & Len & B).
  rewrite Eb. cbn [bind]. exists (dst s), bl. split; [ reflexivity | ].
  assert (B' : forall i b, nth_error bl i = Some b -> exists P, Built b P /\ (forall x y, P x y <-> valid m x y /\ comp (pix (dst s) x y) = Z.of_nat i + 1) /\ exists x y, P x y).
  { intros i b N. pose proof (nth_error_lt _ _ _ N) as Li. destruct (B (Z.of_nat i + 1) ltac:(lia)) as (b' & N' & Hb).
    replace (Z.to_nat (Z.of_nat i + 1 - 1)) with i in N' by lia. rewrite N in N'. injection N' as <-.
    destruct (Co (Z.of_nat i + 1) ltac:(lia)) as (l & Hl & El). assert (Nl : l <> 0) by (intros ->; lia).
    destruct (li_all _ _ _ L l ltac:(lia)) as (x & y & _ & Vx & Ex).
    destruct Hb as [(_ & X) | (P & HB & HP)].
    - exfalso. apply (X x y I Vx). congruence.
    - exists P. split; [ exact HB | ]. split; [ intros u v; rewrite HP; tauto | ]. exists x, y. apply HP. split; [ exact I | ]. split; [ exact Vx | congruence ]. }
  split; [ | split; [ | split; [ | split; [ | split ] ] ] ].
  - intros b Hb. apply In_nth_error in Hb. destruct Hb as (i & N). destruct (B' i b N) as (P & HB & HP & x & y & Px).
    exists P. split; [ exact HB | ]. exists x, y. apply HP in Px. destruct Px as (Vx & Kx). split; [ exact Vx | ].
    intros u v. rewrite HP. split.
    + intros (Vu & Ku). apply Kj; [ exact Vx | exact Vu | congruence ].
    + intros J. pose proof (joined_valid_r _ _ _ _ _ J) as Vu. split; [ exact Vu | ]. rewrite <- Kx. symmetry. apply Kj; assumption.
  - intros x y Vx. pose proof (Kr x y Vx) as Kx. destruct (B _ Kx) as (b & N & _). exists (Z.to_nat (comp (pix (dst s) x y) - 1)), b.
    split; [ exact N | ]. destruct (B' _ _ N) as (P & HB & HP & _). destruct (built_ok b P HB) as (_ & Hs & _). split.
    + apply Hs, HP. split; [ exact Vx | lia ].
    + intros j b' N' H'. destruct (B' _ _ N') as (P' & HB' & HP' & _). destruct (built_ok b' P' HB') as (_ & Hs' & _). apply Hs', HP' in H'. lia.
  - apply (li_cols _ _ _ L).
  - apply (li_rows _ _ _ L).
  - exact Dz.
  - intros x y u v V1 V2. apply (li_same _ _ _ L x y u v); auto.
Qed.

(* C27: several planes are refused *)
Theorem blob_index_planes cc planes m : 1 < planes -> blob_index cc planes m = Throw NoImplErr.
Proof. intros H. unfold blob_index. apply Z.ltb_lt in H. rewrite H. reflexivity. Qed.

(* ---- the contract can be met, and a concrete run ---- *)
Example cc_ref_finds : finds_components cc_ref.
Proof. intros n es. apply cc_ref_ok. Qed.
(* a U, a dot, and a diagonal pair *)
Definition ex_mask : img bool :=
  of_rows false [[true; false; true; false; false]; [true; true; true; false; true]; [false; false; false; false; false]; [false; true; false; true; false]; [true; false; false; false; false]].
Definition ex_run := blob_index cc_ref 1 ex_mask.
Example ex_index : exists labels, ex_run = Ok (labels, [Blob 0 0 [[(0, 1); (2, 3)]; [(0, 3)]]; Blob 4 1 [[(0, 1)]]; Blob 0 3 [[(1, 2)]; [(0, 1)]]; Blob 3 3 [[(0, 1)]]]) /\
  to_rows labels = [[1; 0; 2; 0; 0]; [1; 1; 1; 0; 3]; [0; 0; 0; 0; 0]; [0; 4; 0; 5; 0]; [4; 0; 0; 0; 0]].
Proof. eexists. split; vm_compute; reflexivity. Qed.

(* ---- what does not hold ---- *)

(* The label image keeps the provisional labels: the two arms of a U stay apart in
   it although they are one blob. *)
Theorem blob_index_labels_refuted : exists m labels bl,
  blob_index cc_ref 1 m = Ok (labels, bl) /\ length bl = 1%nat /\ joined m 0 0 2 0 /\ pix labels 0 0 <> pix labels 2 0.
Proof.
  exists (of_rows false [[true; false; true]; [true; true; true]]). eexists. eexists. split; [ vm_compute; reflexivity | ]. split; [ reflexivity | ]. split.
  - assert (S : forall x y u v u' v', joined (of_rows false [[true; false; true]; [true; true; true]]) x y u v ->
      inside (of_rows false [[true; false; true]; [true; true; true]]) u' v' /\ pix (of_rows false [[true; false; true]; [true; true; true]]) u' v' = true ->
      adjacent8 u v u' v' -> joined (of_rows false [[true; false; true]; [true; true; true]]) x y u' v') by (intros; eapply joined_step; eassumption).
    apply (S 0 0 1 1); [ | | unfold adjacent8; lia ].
    + apply (S 0 0 0 0); [ constructor | | unfold adjacent8; lia ]; (split; [ unfold inside; cbn; lia | reflexivity ]).
    + split; [ unfold inside; cbn; lia | reflexivity ].
  - vm_compute. discriminate.
Qed.

(* An image without pixels is read at its corner. *)
Theorem blob_index_empty_refuted : exists m, irows m = 0 /\ forall cc, exists u, blob_index cc 1 m = UB u.
Proof. exists (Img 3 0 (fun _ _ => false)). split; [ reflexivity | ]. intros cc. eexists. reflexivity. Qed.

Print Assumptions blob_index_components.
Print Assumptions blob_index_planes.
Print Assumptions blob_index_labels_refuted.
Print Assumptions blob_index_empty_refuted.
