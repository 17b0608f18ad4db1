(* Mutable two-dimensional arrays used by the image algorithms: an access
   outside the allocated area is undefined behaviour.  Image/ImageView.h:
   operator() and the pixel accessors; the memory layout itself is modelled in
   ImgMem/. *)
From Coq Require Import ZArith List Lia Bool.
From Verif Require Import Lib.Base.
Import ListNotations.
Local Open Scope Z_scope.

Record img (A : Type) := Img { icols : Z; irows : Z; pix : Z -> Z -> A }.
Arguments Img {A}. Arguments icols {A}. Arguments irows {A}. Arguments pix {A}.

Definition inside {A} (m : img A) (x y : Z) : Prop := 0 <= x < icols m /\ 0 <= y < irows m.
Definition insideb {A} (m : img A) (x y : Z) : bool :=
  (0 <=? x) && (x <? icols m) && (0 <=? y) && (y <? irows m).

Definition get {A} (m : img A) (x y : Z) : res A :=
  if insideb m x y then Ok (pix m x y) else UB OutOfBounds.
Definition put {A} (m : img A) (x y : Z) (v : A) : res (img A) :=
  if insideb m x y
  then Ok (Img (icols m) (irows m) (fun i j => if (i =? x) && (j =? y) then v else pix m i j))
  else UB OutOfBounds.

(* [for (i = a; i >= b; --i)] *)
Definition for_dn {S : Type} (a b : Z) (body : Z -> S -> res S) (s : S) : res S :=
  for_up 0 (a - b + 1) (fun k => body (a - k)) s.

Lemma for_dn_inv {S : Type} (P : Z -> S -> Prop) body a b s :
  b <= a + 1 -> P a s ->
  (forall k s, b <= k <= a -> P k s -> exists s', body k s = Ok s' /\ P (k - 1) s') ->
  exists s', for_dn a b body s = Ok s' /\ P (b - 1) s'.
Proof.
  intros L H0 Hs. unfold for_dn.
  destruct (for_up_inv (fun k s => P (a - k) s) (fun k => body (a - k)) 0 (a - b + 1) s) as (s' & E & H); [lia|now rewrite Z.sub_0_r| |].
  - intros k t Hk Pt. destruct (Hs (a - k) t ltac:(lia) Pt) as (t' & E & P'). exists t'. split; auto.
    replace (a - (k + 1)) with (a - k - 1) by lia. auto.
  - exists s'. split; auto. replace (b - 1) with (a - (a - b + 1)) by lia. auto.
Qed.

Lemma insideb_iff {A} (m : img A) x y : insideb m x y = true <-> inside m x y.
Proof. unfold insideb, inside. rewrite !andb_true_iff, !Z.leb_le, !Z.ltb_lt. lia. Qed.
Lemma get_in {A} (m : img A) x y : inside m x y -> get m x y = Ok (pix m x y).
Proof. intros H. unfold get. apply insideb_iff in H. now rewrite H. Qed.
Lemma get_out {A} (m : img A) x y : ~ inside m x y -> get m x y = UB OutOfBounds.
Proof. intros H. unfold get. destruct (insideb m x y) eqn:E; auto. apply insideb_iff in E. contradiction. Qed.

(* writing: the sizes stay, exactly one pixel changes *)
Lemma put_in {A} (m : img A) x y v : inside m x y ->
  exists m', put m x y v = Ok m' /\ icols m' = icols m /\ irows m' = irows m /\
    pix m' x y = v /\ (forall i j, (i <> x \/ j <> y) -> pix m' i j = pix m i j).
Proof.
  intros H. unfold put. apply insideb_iff in H. rewrite H. eexists. split; [reflexivity|]. cbn [icols irows pix].
  split; [auto|split; [auto|split]].
  - now rewrite !Z.eqb_refl.
  - intros i j N. destruct (Z.eqb_spec i x), (Z.eqb_spec j y); auto. lia.
Qed.

(* two arrays with the same visible contents *)
Definition img_eq {A} (m m' : img A) : Prop :=
  icols m = icols m' /\ irows m = irows m' /\ forall x y, inside m x y -> pix m x y = pix m' x y.

(* literal images for examples: rows from the top *)
Definition of_rows {A} (d : A) (l : list (list A)) : img A :=
  Img (Z.of_nat (length (nth 0 l []))) (Z.of_nat (length l)) (fun x y => nth (Z.to_nat x) (nth (Z.to_nat y) l []) d).
Definition to_rows {A} (m : img A) : list (list A) :=
  map (fun y => map (fun x => pix m x y) (zrange 0 (icols m))) (zrange 0 (irows m)).
