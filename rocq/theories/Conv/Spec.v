(* Convolution as a sum, independently of how it is computed. *)
From Coq Require Import ZArith List Lia Bool QArith Qcanon.
From Verif Require Import Lib.Base Lib.Img Lib.QSum BBox.Box2 Edge.Model Conv.Model.
Import ListNotations.
Local Open Scope Z_scope.

(* The convolution at (x,y) of the image F, defined everywhere, with a kernel K of kc x kr
   numbers whose origin is (ci,cj). *)
Definition convolution (kc kr : Z) (K : Z -> Z -> Qc) (ci cj : Z) (F : Z -> Z -> Qc) (x y : Z) : Qc :=
  qsum 0 kr (fun j => qsum 0 kc (fun i => K i j * F (x + ci - i)%Z (y + cj - j)%Z))%Qc.

(* The same along one axis. *)
Definition convolution1 (k : list Qc) (c : Z) (f : Z -> Qc) (x : Z) : Qc :=
  qsum 0 (Z.of_nat (length k)) (fun i => nth (Z.to_nat i) k 0 * f (x + c - i)%Z)%Qc.

(* An empty kernel leaves its axis alone, like the kernel [1]. *)
Definition filled (k : list Qc) : list Qc := match k with [] => [1%Qc] | _ => k end.
Definition origin (k : list Qc) (c : Z) : Z := match k with [] => 0 | _ => c end.
(* the two-dimensional kernel with given factors *)
Definition outer (ik jk : list Qc) (i j : Z) : Qc := (nth (Z.to_nat i) (filled ik) 0 * nth (Z.to_nat j) (filled jk) 0)%Qc.
Definition len (k : list Qc) : Z := Z.of_nat (length (filled k)).

(* the sum of the elements *)
Fixpoint lsum (k : list Qc) : Qc := match k with [] => 0%Qc | q :: k => (q + lsum k)%Qc end.

(* Polynomials by their coefficients, lowest first. *)
Fixpoint peval (p : list Qc) (t : Qc) : Qc := match p with [] => 0%Qc | c :: p => (c + t * peval p t)%Qc end.
Fixpoint padd (p q : list Qc) : list Qc :=
  match p, q with [], _ => q | _, [] => p | a :: p, b :: q => (a + b)%Qc :: padd p q end.
(* (c + t p)' = p + t p' *)
Fixpoint pderiv (p : list Qc) : list Qc := match p with [] => [] | _ :: p => padd p (0%Qc :: pderiv p) end.
Fixpoint pderivs (n : nat) (p : list Qc) : list Qc := match n with O => p | S n => pderiv (pderivs n p) end.

(* F tells what the extended image reads as, at all the places the kernel covers from (x,y) *)
Definition readable (m : mode Qc) (v : view Qc) (F : Z -> Z -> Qc) (kc kr ci cj x y : Z) : Prop :=
  forall i j, 0 <= i < kc -> 0 <= j < kr -> ext_read m v (x + ci - i) (y + cj - j) = Ok (F (x + ci - i) (y + cj - j)).

(* d holds G over the box b *)
Definition holds (d : img Qc) (b : box) (G : Z -> Z -> Qc) : Prop :=
  icols d = bw b /\ irows d = bh b /\ forall x y, inb b x y -> pix d (x - x0 b) (y - y0 b) = G x y.

(* every pixel of b can be computed *)
Definition readable_over (m : mode Qc) (v : view Qc) (F : Z -> Z -> Qc) (kc kr ci cj : Z) (b : box) : Prop :=
  forall x y, inb b x y -> readable m v F kc kr ci cj x y.

(* convolution along the rows, conversion to the pixel type (W), then along the columns (R) *)
Definition two_pass (t : chan) (ik jk : list Qc) (ci cj : Z) (F W : Z -> Z -> Qc) (b : box) (R : Z -> Z -> Qc) : Prop :=
  (forall x y, x0 b <= x < x1 b -> y0 b + origin jk cj - (len jk - 1) <= y < y1 b + origin jk cj ->
     (match ik with [] => fun q => Ok q | _ => cast_clamp_if_int t end) (convolution1 (filled ik) (origin ik ci) (fun x => F x y) x) = Ok (W x y)) /\
  (forall x y, inb b x y ->
     (match jk with [] => fun q => Ok q | _ => cast_clamp_if_int t end) (convolution1 (filled jk) (origin jk cj) (W x) y) = Ok (R x y)).
