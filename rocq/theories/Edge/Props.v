(* C06, C07: edge extension. *)
From Coq Require Import ZArith List Lia Bool.
From Verif Require Import Lib.Base BBox.Box2 Edge.Model Edge.Spec Edge.Proofs.
Local Open Scope Z_scope.

(* C06: every mode reads an existing pixel, the documented one. *)
Theorem edge_extension_reads : forall A (m : mode A) c r (px : Z -> Z -> A) i j, mode_ok m c r ->
  (m = MNone -> 0 <= i < c /\ 0 <= j < r) ->
  exists x, ext_read m (mem_view c r px) i j = Ok x /\
    match m with
    | MNone => x = px i j
    | MZero z | MValue z => (0 <= i < c /\ 0 <= j < r -> x = px i j) /\ (~ (0 <= i < c /\ 0 <= j < r) -> x = z)
    | MConstant => exists k l, nearest_index c i k /\ nearest_index r j l /\ x = px k l
    | MPeriodic => exists k l, periodic_index c i k /\ periodic_index r j l /\ x = px k l
    | MCylindrical => exists k l, periodic_index c i k /\ nearest_index r j l /\ x = px k l
    | MReflect => exists k l, mirror_index c i k /\ mirror_index r j l /\ x = px k l
    end.
Proof. exact @edge_reads. Qed.
Print Assumptions edge_extension_reads.

(* The three index relations determine the index. *)
Theorem edge_index_unique : forall n i k l,
  (nearest_index n i k -> nearest_index n i l -> k = l) /\
  (periodic_index n i k -> periodic_index n i l -> k = l) /\
  (1 < n -> mirror_index n i k -> mirror_index n i l -> k = l).
Proof.
  intros n i k l. split; [|split].
  - intros [K1 K2] [L1 L2]. pose proof (K2 l L1). pose proof (L2 k K1).
    assert (D : i < 0 \/ 0 <= i < n \/ n <= i) by lia. destruct D as [D|[D|D]]; [lia| |lia].
    specialize (K2 i D). specialize (L2 i D). lia.
  - intros [K1 [q ->]] [L1 [p E]]. assert (q = p) by nia. nia.
  - intros Hn [K1 [q K]] [L1 [p L]]. destruct K as [K|K], L as [L|L].
    + assert (q = p) by nia. nia.
    + assert (k + l = (p - q) * (2 * (n - 1))) by lia. assert (p - q = 0 \/ p - q = 1) by nia. nia.
    + assert (k + l = (q - p) * (2 * (n - 1))) by lia. assert (q - p = 0 \/ q - p = 1) by nia. nia.
    + assert (q = p) by nia. nia.
Qed.
Print Assumptions edge_index_unique.

Theorem edge_linear_reads : forall c r px i j, 1 < c -> 1 < r ->
  linear_read (mem_view c r px) i j = Ok (lin_spec c r px i j).
Proof. exact linear_reads. Qed.
Print Assumptions edge_linear_reads.

(* Linear extrapolation reproduces every affine image everywhere. *)
Theorem edge_linear_affine : forall c r a b d i j, 1 < c -> 1 < r ->
  linear_read (mem_view c r (fun x y => a * x + b * y + d)) i j = Ok (a * i + b * j + d).
Proof.
  intros. rewrite linear_reads by auto. f_equal. unfold lin_spec. cbn zeta.
  destruct (i <? 0), (j <? 0); ring.
Qed.
Print Assumptions edge_linear_affine.

(* Sizes the modes do not support, although nothing rejects them. *)
Theorem edge_reflect_one_column_refuted : forall i j,
  ext_read MReflect (mem_view 1 5 (fun x y => x + y)) i j = UB DivByZero.
Proof. reflexivity. Qed.
Print Assumptions edge_reflect_one_column_refuted.

Theorem edge_linear_one_column_refuted :
  linear_read (mem_view 1 5 (fun x y => x + y)) (-1) 2 = UB OutOfBounds.
Proof. reflexivity. Qed.
Print Assumptions edge_linear_one_column_refuted.

Theorem edge_periodic_empty_refuted : forall i j,
  ext_read MPeriodic (mem_view 0 5 (fun x y => x + y)) i j = UB DivByZero.
Proof. reflexivity. Qed.
Print Assumptions edge_periodic_empty_refuted.

(* C07: reading any location of a rectangle touches only the announced source
   rectangle, which lies in the image. *)
Theorem edge_source_covers : forall A (m : mode A) (v : view A) ox oy b i j,
  mode_ok m (cols v) (rows v) -> inb b i j ->
  exists s, view_source m v ox oy b = Ok s /\
    (m <> MNone -> forall x y, inb s x y -> 0 <= x < cols v /\ 0 <= y < rows v) /\
    view_ext_read m (restrict v s) ox oy i j = view_ext_read m v ox oy i j.
Proof. exact @view_source_covers. Qed.
Print Assumptions edge_source_covers.

Theorem edge_linear_source_covers : forall (v : view Z) b i j, 1 < cols v -> 1 < rows v -> inb b i j ->
  let s := linear_source_bbox v b in
  (forall x y, inb s x y -> 0 <= x < cols v /\ 0 <= y < rows v) /\
  linear_read (restrict v s) i j = linear_read v i j.
Proof. exact linear_covers. Qed.
Print Assumptions edge_linear_source_covers.

(* Hence rasterising through the prerasterised child gives the documented value
   and never reads outside. *)
Theorem edge_prerasterized_reads : forall A (m : mode A) c r (px : Z -> Z -> A) ox oy b i j,
  mode_ok m c r -> m <> MNone -> inb b i j ->
  exists s x, view_source m (mem_view c r px) ox oy b = Ok s /\
    view_ext_read m (restrict (mem_view c r px) s) ox oy i j = Ok x /\
    ext_read m (mem_view c r px) (i + ox) (j + oy) = Ok x.
Proof.
  intros A m c r px ox oy b i j Ho Hm Hb.
  destruct (view_source_covers m (mem_view c r px) ox oy b i j Ho Hb) as (s & E & _ & R).
  destruct (edge_reads m c r px (i + ox) (j + oy) Ho) as (x & Ex & _); [tauto|].
  exists s, x. split; [auto|]. split; [|auto]. rewrite R. exact Ex.
Qed.
Print Assumptions edge_prerasterized_reads.

(* Concrete cases. *)
Example edge_ex_modes : mode_ok (@MReflect Z) 4 3 /\
  ext_read MReflect (mem_view 4 3 (fun x y => 10 * y + x)) (-9) 7 = Ok 13 /\
  source_bbox MReflect (mem_view 4 3 (fun x y => 10 * y + x)) (Box (-9) 7 (-6) 9) = Ok (Box 1 0 4 2).
Proof. split; [simpl; lia|]. split; reflexivity. Qed.
Example edge_ex_periodic : ext_read MPeriodic (mem_view 4 3 (fun x y => 10 * y + x)) (-1) 7 = Ok 13.
Proof. reflexivity. Qed.
Example edge_ex_linear : linear_read (mem_view 3 3 (fun x y => x * x + y)) 4 (-2) = Ok 8.
Proof. reflexivity. Qed.
