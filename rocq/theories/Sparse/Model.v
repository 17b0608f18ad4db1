(* Model of src/vw/Image/SparseView.h: SparseCompositeView.  A patch pixel is
   None when is_valid() is false.  m_data is a vector with one map per row; the
   keys of a map are one past the last column of a segment. *)
From Coq Require Import ZArith List Lia Bool.
From Verif Require Import Lib.Base Lib.Img Lib.SMap.
Import ListNotations.
Local Open Scope Z_scope.

Section Pixel.
Context {A : Type}.

Definition rowmap : Type := smap (list A).
(* SparseView.h:57-60; [srows] is m_data.size() *)
Record sview := SView { srows : Z; srow : Z -> rowmap; under : Z -> Z -> A }.

(* SparseView.h:68-71 *)
Definition create (rows : Z) (u : Z -> Z -> A) : sview := SView rows (fun _ => []) u.

Definition zlen (d : list A) : Z := Z.of_nat (length d).
(* SparseView.h:91: reading the vector of a segment *)
Definition at_ (d : list A) (k : Z) : res A :=
  if k <? 0 then UB OutOfBounds
  else match nth_error d (Z.to_nat k) with Some v => Ok v | None => UB OutOfBounds end.

(* SparseView.h:79-94 *)
Definition read (s : sview) (i j : Z) : res A :=
  if (j <? 0) || (srows s <=? j) then UB OutOfBounds else
  match from (i + 1) (srow s j) with
  | (k, d) :: _ => let s_idx := k - zlen d in if i <? s_idx then Ok (under s i j) else at_ d (i - s_idx)
  | [] => Ok (under s i j)
  end.

(* SparseView.h:117-141: the runs of valid pixels of one row, as pairs (one past
   the last column, pixels).  The code keeps the two components in two lists
   that grow together. *)
Record run := Run { building : bool; temp : list A; segs : list (Z * list A) }.
Definition run_step (row : Z -> option A) (c : Z) (s : run) : run :=
  match row c with
  | Some v => Run true (temp s ++ [v]) (segs s)
  | None => if building s then Run false [] (segs s ++ [(c, temp s)]) else s
  end.
Definition runs (row : Z -> option A) (cols : Z) : list (Z * list A) :=
  let s := ploop (Z.to_nat cols) 0 (run_step row) (Run false [] []) in
  if building s then segs s ++ [(cols, temp s)] else segs s.

(* SparseView.h:161-190: one segment ending at e with pixels d *)
Definition absorb_seg (m : rowmap) (e : Z) (d : list A) : res rowmap :=
  match from e m with
  | [] => Ok (assign e d m)
  | (k, dd) :: r =>
    let m_start := k - zlen dd in
    match rev (before e m) with
    | [] =>
      if m_start <? e then Throw NoImplErr
      else if e =? m_start then Ok (before e m ++ (k, d ++ dd) :: r)
      else Ok (assign e d m)
    | (pk, _) :: _ =>
      let t_start := e - zlen d in
      if (t_start <? pk) || (m_start <? e) then Throw NoImplErr
      else if e =? m_start then Ok (before e m ++ (k, d ++ dd) :: r)
      else Ok (assign e d m)
    end
  end.

Definition set_row (s : sview) (j : Z) (m : rowmap) : sview :=
  SView (srows s) (fun k => if k =? j then m else srow s k) (under s).

(* SparseView.h:157-194: the segments of one row, shifted by the start column
   (143-147).  An exception leaves the segments absorbed so far in place. *)
Fixpoint absorb_row (s : sview) (x0 j : Z) (l : list (Z * list A)) : sview * res unit :=
  match l with
  | [] => (s, Ok tt)
  | (e, d) :: t =>
    if (j <? 0) || (srows s <=? j) then (s, UB OutOfBounds) else
    match absorb_seg (srow s j) (e + x0) d with
    | Ok m => absorb_row (set_row s j m) x0 j t
    | Throw x => (s, Throw x)
    | UB u => (s, UB u)
    end
  end.

(* SparseView.h:153-195 *)
Fixpoint absorb_rows (s : sview) (x0 y0 : Z) (p : img (option A)) (n : nat) (r : Z) : sview * res unit :=
  match n with
  | O => (s, Ok tt)
  | S n' =>
    match absorb_row s x0 (y0 + r) (runs (fun c => pix p c r) (icols p)) with
    | (s', Ok _) => absorb_rows s' x0 y0 p n' (r + 1)
    | other => other
    end
  end.

(* SparseView.h:104-196.  Starting behind the origin is only caught in debug
   builds (109-110). *)
Definition absorb (s : sview) (x0 y0 : Z) (p : img (option A)) : sview * res unit :=
  let s := if srows s <? y0 + irows p then SView (y0 + irows p) (srow s) (under s) else s in
  absorb_rows s x0 y0 p (Z.to_nat (irows p)) 0.

(* a client absorbing one patch after the other *)
Fixpoint absorb_all (s : sview) (l : list (Z * Z * img (option A))) : sview * list (res unit) :=
  match l with
  | [] => (s, [])
  | (x0, y0, p) :: t =>
    let '(s', r) := absorb s x0 y0 p in let '(s'', rs) := absorb_all s' t in (s'', r :: rs)
  end.
End Pixel.
