(* C03, C04, C05: subdivision and block processing. *)
From Coq Require Import ZArith List Lia Bool.
From Verif Require Import Lib.Base BBox.Proofs BBox.Box2 Blocks.Model Blocks.Spec Blocks.Proofs.
Import ListNotations.
Local Open Scope Z_scope.

(* C03 *)
Theorem subdivide_is_partition : forall o bwid bhei, 0 < bwid -> 0 < bhei ->
  exists l, subdivide_bbox o bwid bhei true false = Ok l /\ partitions l o /\
    forall b, In b l -> has_pixel b /\ x1 b - x0 b <= bwid /\ y1 b - y0 b <= bhei /\ subset b o.
Proof. exact subdivide_partition. Qed.
Print Assumptions subdivide_is_partition.

Theorem subdivide_full_tiles_only : forall o bwid bhei, 0 < bwid -> 0 < bhei ->
  exists l, subdivide_bbox o bwid bhei false false = Ok l /\
    (forall b, In b l -> x1 b - x0 b = bwid /\ y1 b - y0 b = bhei /\ subset b o) /\
    partitions l (Box (x0 o) (y0 o) (x0 o + bwid * (bw o / bwid)) (y0 o + bhei * (bh o / bhei))).
Proof. exact subdivide_full_tiles. Qed.
Print Assumptions subdivide_full_tiles_only.

Theorem subdivide_same_size_covers : forall o bwid bhei, 0 < bwid -> 0 < bhei ->
  exists l, subdivide_bbox o bwid bhei true true = Ok l /\
    (forall b, In b l -> x1 b - x0 b = bwid /\ y1 b - y0 b = bhei) /\
    (forall x y, inb o x y -> exists b, In b l /\ inb b x y) /\
    (bwid <= bw o -> bhei <= bh o -> forall b, In b l -> subset b o).
Proof. exact subdivide_full_size. Qed.
Print Assumptions subdivide_same_size_covers.

(* Same-size tiles leave the region when the region is smaller than a tile. *)
Theorem subdivide_same_size_inside_refuted : exists o l,
  subdivide_bbox o 4 4 true true = Ok l /\ exists b, In b l /\ has_pixel b /\ ~ subset b o.
Proof.
  exists (box_of 0 0 3 3), [box_of (-1) (-1) 4 4]. split; [reflexivity|].
  eexists; split; [left; reflexivity|]. split; [unfold has_pixel; simpl; lia|].
  intros H. specialize (H (-1) (-1)). unfold inb in H; simpl in H. lia.
Qed.
Print Assumptions subdivide_same_size_inside_refuted.

(* A block height of zero never ends: the row loop makes no progress however
   many iterations are allowed. *)
Theorem subdivide_zero_block_diverges : forall fuel o, bempty o = false ->
  sub_rows fuel o 1 0 true false 0 = UB NoTerm.
Proof.
  assert (B : forall o j, bempty o = false ->
    exists l, sub_cols (S (Z.to_nat (bw o))) (x0 o) (bw o) 1 true false j 0 0 = Ok l).
  { intros o j E. assert (G : forall f ox w oy i, 0 <= i -> Z.max 0 (w - i) < Z.of_nat f ->
      exists l, sub_cols f ox w 1 true false oy 0 i = Ok l).
    { induction f; intros ox w oy i Hi Hf; [lia|]. cbn [sub_cols negb]. cbn zeta.
      destruct (i <? w) eqn:E1; [|eauto]. b2p.
      destruct (IHf ox w oy (i + 1)) as (l & El); try lia. rewrite El. simpl.
      destruct (w - i <? 1); eauto. }
    apply G; pose proof (bw_nonneg o); lia. }
  induction fuel; intros o E; [reflexivity|]. cbn [sub_rows negb]. cbn zeta.
  pose proof (bh_nonempty o E). pose proof (proj1 (bempty_false o) E).
  destruct (Z.ltb_spec 0 (bh o)); [|lia]. destruct (Z.ltb_spec (bh o - 0) 0); [lia|].
  destruct (B o (0 + y0 o) E) as (l & ->). cbn [bind]. change (0 + 0) with 0. rewrite IHfuel by auto. reflexivity.
Qed.
Print Assumptions subdivide_zero_block_diverges.

Example subdivide_ex : subdivide_bbox (box_of 2 (-3) 5 3) 2 2 true false =
  Ok [box_of 2 (-3) 2 2; box_of 4 (-3) 2 2; box_of 6 (-3) 1 2; box_of 2 (-1) 2 1; box_of 4 (-1) 2 1; box_of 6 (-1) 1 1].
Proof. reflexivity. Qed.
Example subdivide_ex_full : subdivide_bbox (box_of 2 (-3) 5 3) 2 2 false false = Ok [box_of 2 (-3) 2 2; box_of 4 (-3) 2 2].
Proof. reflexivity. Qed.
Example subdivide_ex_same : subdivide_bbox (box_of 0 0 5 2) 2 2 true true = Ok [box_of 0 0 2 2; box_of 2 0 2 2; box_of 3 0 2 2].
Proof. reflexivity. Qed.

(* C04 *)
Theorem block_processor_partition : forall total bx by_, 0 < bx -> 0 < by_ ->
  forall n tr s, (0 < n)%nat -> bsteps total bx by_ (binit total bx by_ n) tr s ->
    Forall (fun w => w = Done) (workers s) ->
    partitions (calls s) total /\
    (forall b, In b (calls s) ->
      (exists i j, b = bcrop (box_of (i * bx) (j * by_) bx by_) total) /\ (bempty total = false -> has_pixel b)).
Proof. exact process_done_partition. Qed.
Print Assumptions block_processor_partition.

(* At every moment of every schedule, the boxes given out so far are disjoint and inside. *)
Theorem block_processor_at_most_once : forall total bx by_, 0 < bx -> 0 < by_ ->
  forall n tr s x y, bsteps total bx by_ (binit total bx by_ n) tr s ->
    (ncover (calls s ++ running (workers s)) x y <= 1)%nat /\
    (~ inb total x y -> ncover (calls s ++ running (workers s)) x y = 0%nat).
Proof. exact process_at_most_once. Qed.
Print Assumptions block_processor_at_most_once.

(* Every schedule is finite, and it can only stop when all workers have returned. *)
Theorem block_processor_terminates : forall total bx by_, 0 < bx -> 0 < by_ ->
  forall n, exists bound, forall tr s,
    bsteps total bx by_ (binit total bx by_ n) tr s ->
      (length tr <= bound)%nat /\
      ((forall k s', ~ bstep total bx by_ s k s') -> Forall (fun w => w = Done) (workers s)).
Proof. exact process_terminates. Qed.
Print Assumptions block_processor_terminates.

(* An empty region whose vertical extent is not empty still calls the function,
   with empty boxes. *)
Theorem block_processor_empty_region_calls : exists total tr s,
  bempty total = true /\ bsteps total 4 4 (binit total 4 4 1) tr s /\
  Forall (fun w => w = Done) (workers s) /\ calls s <> [].
Proof.
  exists (box_of 0 0 0 4), [0%nat;0%nat;0%nat]. eexists. split; [reflexivity|]. split.
  - eapply bsteps_cons; [eapply (step_take _ _ _ _ 0); reflexivity|].
    eapply bsteps_cons; [eapply (step_call _ _ _ _ 0); reflexivity|].
    eapply bsteps_cons; [eapply (step_exit _ _ _ _ 0); reflexivity|]. apply bsteps_nil.
  - simpl. split; [repeat constructor|discriminate].
Qed.
Print Assumptions block_processor_empty_region_calls.

Example block_processor_run : exists s,
  bsteps (box_of (-1) 0 3 2) 2 2 (binit (box_of (-1) 0 3 2) 2 2 2) [0;1;1;0;0;1]%nat s /\
  Forall (fun w => w = Done) (workers s) /\ calls s = [Box (-1) 0 0 2; Box 0 0 2 2].
Proof.
  eexists. split.
  - eapply bsteps_cons; [eapply (step_take _ _ _ _ 0); reflexivity|].
    eapply bsteps_cons; [eapply (step_take _ _ _ _ 1); reflexivity|].
    eapply bsteps_cons; [eapply (step_call _ _ _ _ 1); reflexivity|].
    eapply bsteps_cons; [eapply (step_call _ _ _ _ 0); reflexivity|].
    eapply bsteps_cons; [eapply (step_exit _ _ _ _ 0); reflexivity|].
    eapply bsteps_cons; [eapply (step_exit _ _ _ _ 1); reflexivity|]. apply bsteps_nil.
  - simpl. split; [repeat constructor|reflexivity].
Qed.

(* C05 *)
Theorem block_cache_read : forall cols rows bx by_, 0 < cols -> 0 < rows -> 0 < bx -> 0 < by_ ->
  forall A (child : Z -> Z -> A) x y, 0 <= x < cols -> 0 <= y < rows ->
  view_read cols rows bx by_ A child x y = Ok (child x y).
Proof. exact view_read_ok. Qed.
Print Assumptions block_cache_read.

(* The whole pipeline: for any number of workers and any schedule, rasterising a
   region through the block cache fills exactly the destination pixels of the
   region with the child's pixels, with no out-of-bounds access. *)
Theorem block_cache_rasterize : forall cols rows bx by_, 0 < cols -> 0 < rows -> 0 < bx -> 0 < by_ ->
  forall A (child : Z -> Z -> A) total n tr s (d : dest A), (0 < n)%nat -> bempty total = false ->
    subset total (Box 0 0 cols rows) ->
    bsteps total bx by_ (binit total bx by_ n) tr s -> Forall (fun w => w = Done) (workers s) ->
    exists d', run_calls A (functor_cached cols rows bx by_ A child) (rev (calls s)) (x0 total) (y0 total) d = Ok d' /\
      forall i j, d' i j = if inbb total (i + x0 total) (j + y0 total)
                           then Some (child (i + x0 total) (j + y0 total)) else d i j.
Proof. exact rasterize_cached. Qed.
Print Assumptions block_cache_rasterize.

(* A request outside the image is rejected by the table check, unless there is
   one block only, where it reads outside the block's buffer. *)
Theorem block_cache_single_block_refuted : exists cols rows x y,
  view_read cols rows 8 8 Z (fun _ _ => 0) x y = UB OutOfBounds /\
  view_read (cols + 8) rows 8 8 Z (fun _ _ => 0) (x + 16) y = Throw ArgumentErr.
Proof. exists 4, 4, 5, 0. split; reflexivity. Qed.
Print Assumptions block_cache_single_block_refuted.

Theorem default_block_size_ok : forall rows cols planes psize, 0 < rows -> 0 < cols -> 0 < planes -> 0 < psize ->
  exists h, get_default_block_size rows cols planes psize = Ok (cols, h) /\ 1 <= h <= rows.
Proof.
  intros. unfold get_default_block_size, cdiv.
  destruct (Z.eqb_spec (planes * cols * psize) 0); [nia|]. simpl. eexists; split; [reflexivity|].
  match goal with |- context [?a ÷ ?b] => generalize (a ÷ b) end. intros q.
  destruct (q <? 1) eqn:?; [lia|]. destruct (q >? rows) eqn:?; b2p; lia.
Qed.
Print Assumptions default_block_size_ok.

Theorem default_block_size_empty_refuted : get_default_block_size 0 0 1 4 = UB DivByZero.
Proof. reflexivity. Qed.
Print Assumptions default_block_size_empty_refuted.

Example block_cache_ex : view_read 10 7 4 4 Z (fun x y => 100 * y + x) 9 6 = Ok 609.
Proof. reflexivity. Qed.
