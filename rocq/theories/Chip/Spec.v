(* What it means to cut a cloud of points into chips. *)
From Coq Require Import ZArith QArith Qcanon List Lia Bool Permutation Sorted.
From Verif Require Import Lib.Base Lib.Img Chip.Model.
Import ListNotations.
Local Open Scope Z_scope.

Section Spec.
Variables (buffer : list point) (bs : Z).
Definition X (i : Z) : Qc := px (nth (Z.to_nat i) buffer origin).
Definition Y (i : Z) : Qc := py (nth (Z.to_nat i) buffer origin).

(* two sets of points that a line parallel to an axis separates, the first to the left or below *)
Definition apart (f : Z -> Qc) (c d : list Z) : Prop := forall p q, In p c -> In q d -> (f p <= f q)%Qc.
Definition separated (c d : list Z) : Prop := apart X c d \/ apart Y c d.
(* the points of a chip are stored along one of the axes *)
Definition along (f : Z -> Qc) (c : list Z) : Prop := StronglySorted (fun p q => (f p <= f q)%Qc) c.

(* The image: block number k, counting down the columns of blocks, holds the k-th chip; its
   points go down the columns, and the rest of the block is unchanged. *)
Definition chips_in (conv : point -> point) (nrb first : Z) (chips : list (list Z)) (old : Z -> Z -> point) (x y : Z) : point :=
  let k := x / bs * nrb + y / bs in
  let n := x mod bs * bs + y mod bs in
  if (first <=? k) && (k <? first + Z.of_nat (length chips)) then
    let chip := nth (Z.to_nat (k - first)) chips [] in
    if n <? Z.of_nat (length chip) then conv (nth (Z.to_nat (nth (Z.to_nat n) chip 0)) buffer origin) else old x y
  else old x y.
End Spec.
