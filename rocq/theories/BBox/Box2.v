(* BBox2i (BBox<int32,2>) in coordinate form, used by the image modules, with
   its relation to the n-dimensional model of src/vw/Math/BBox.tcc. *)
From Coq Require Import ZArith List Lia Bool.
From Verif Require Import Lib.Base BBox.Model BBox.Spec BBox.Proofs.
Import ListNotations.
Local Open Scope Z_scope.

(* BBox.h: min().x(), min().y(), max().x(), max().y() of a BBox2i *)
Record box := Box { x0 : Z; y0 : Z; x1 : Z; y1 : Z }.
Definition to_nd (b : box) : bbox := mkB [x0 b; y0 b] [x1 b; y1 b].

(* BBox.tcc:53-58 *)
Definition box_of (x y w h : Z) : box := Box x y (x + w) (y + h).
(* BBox.tcc:36-44 *)
Definition box_default : box := Box (i32_max-1) (i32_max-1) (-(i32_max-1)) (-(i32_max-1)).
(* BBox.tcc:155-160 *)
Definition bempty (b : box) : bool := if x0 b >=? x1 b then true else if y0 b >=? y1 b then true else false.
(* BBox.tcc:169-181 *)
Definition bw (b : box) : Z := if bempty b then 0 else x1 b - x0 b.
Definition bh (b : box) : Z := if bempty b then 0 else y1 b - y0 b.
(* BBox.tcc:108-120 *)
Definition bcrop (b c : box) : box :=
  Box (if x0 b <? x0 c then x0 c else x0 b) (if y0 b <? y0 c then y0 c else y0 b)
      (if x1 b >? x1 c then x1 c else x1 b) (if y1 b >? y1 c then y1 c else y1 b).
(* BBox.tcc:279-286 *)
Definition bshift (b : box) (dx dy : Z) : box :=
  if bempty b then b else Box (x0 b + dx) (y0 b + dy) (x1 b + dx) (y1 b + dy).
(* BBox.tcc:227-234 *)
Definition bexpand (b : box) (k : Z) : box :=
  if bempty b then b else Box (x0 b - k) (y0 b - k) (x1 b + k) (y1 b + k).

(* Specification: pixel (x,y) of the half-open box. *)
Definition inb (b : box) (x y : Z) : Prop := x0 b <= x < x1 b /\ y0 b <= y < y1 b.

Lemma to_nd_wf b : wf 2 (to_nd b).
Proof. split; simpl; auto. Qed.
Lemma inb_nd b x y : inb b x y <-> inside (to_nd b) [x; y].
Proof.
  rewrite (inside_wf 2) by apply to_nd_wf. unfold inb; simpl. split.
  - intros [? ?]. split; auto. intros [|[|i]] ?; simpl; lia.
  - intros [_ H]. split; [apply (H 0%nat)|apply (H 1%nat)]; lia.
Qed.
Lemma bempty_nd b : bempty b = empty (to_nd b).
Proof. unfold bempty, empty; simpl. destruct (x0 b >=? x1 b), (y0 b >=? y1 b); reflexivity. Qed.
Lemma bcrop_nd b c : crop (to_nd b) (to_nd c) = Ok (to_nd (bcrop b c)).
Proof. reflexivity. Qed.
Lemma bshift_nd b dx dy : shift (to_nd b) [dx; dy] = to_nd (bshift b dx dy).
Proof. unfold shift, bshift. rewrite <- bempty_nd. destruct (bempty b); reflexivity. Qed.
Lemma bexpand_nd b k : expand k (to_nd b) = to_nd (bexpand b k).
Proof. unfold expand, bexpand. rewrite <- bempty_nd. destruct (bempty b); reflexivity. Qed.
Lemma bw_nd b : bw b = width (to_nd b).
Proof. unfold bw, width, extent. rewrite <- bempty_nd. destruct (bempty b); reflexivity. Qed.
Lemma bh_nd b : bh b = height (to_nd b).
Proof. unfold bh, height, extent. rewrite <- bempty_nd. destruct (bempty b); reflexivity. Qed.

Lemma bempty_false b : bempty b = false <-> x0 b < x1 b /\ y0 b < y1 b.
Proof.
  unfold bempty. destruct (x0 b >=? x1 b) eqn:?, (y0 b >=? y1 b) eqn:?; b2p; split; try discriminate; try lia; auto.
Qed.
Lemma bempty_true b : bempty b = true <-> x1 b <= x0 b \/ y1 b <= y0 b.
Proof.
  unfold bempty. destruct (x0 b >=? x1 b) eqn:?, (y0 b >=? y1 b) eqn:?; b2p; split; try discriminate; try lia; auto.
Qed.
Lemma inb_crop b c x y : inb (bcrop b c) x y <-> inb b x y /\ inb c x y.
Proof.
  unfold inb, bcrop; simpl.
  destruct (x0 b <? x0 c) eqn:?, (y0 b <? y0 c) eqn:?, (x1 b >? x1 c) eqn:?, (y1 b >? y1 c) eqn:?; b2p; lia.
Qed.
Lemma bcrop_eq b c : bcrop b c = Box (Z.max (x0 b) (x0 c)) (Z.max (y0 b) (y0 c)) (Z.min (x1 b) (x1 c)) (Z.min (y1 b) (y1 c)).
Proof.
  unfold bcrop. f_equal; match goal with |- (if ?c then _ else _) = _ => destruct c eqn:? end; b2p; lia.
Qed.
Lemma inb_shift b dx dy x y : inb (bshift b dx dy) x y <-> inb b (x - dx) (y - dy).
Proof.
  unfold bshift. destruct (bempty b) eqn:E.
  - apply bempty_true in E. unfold inb. lia.
  - unfold inb; simpl; lia.
Qed.
Lemma inb_nonempty b x y : inb b x y -> bempty b = false.
Proof. rewrite bempty_false. unfold inb; lia. Qed.
Lemma bw_nonempty b : bempty b = false -> bw b = x1 b - x0 b.
Proof. unfold bw. intros ->. auto. Qed.
Lemma bh_nonempty b : bempty b = false -> bh b = y1 b - y0 b.
Proof. unfold bh. intros ->. auto. Qed.
Lemma bw_nonneg b : 0 <= bw b.
Proof. unfold bw. destruct (bempty b) eqn:E; [lia|]. apply bempty_false in E. lia. Qed.
Lemma bh_nonneg b : 0 <= bh b.
Proof. unfold bh. destruct (bempty b) eqn:E; [lia|]. apply bempty_false in E. lia. Qed.
