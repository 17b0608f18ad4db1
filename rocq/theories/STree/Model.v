(** Spatial trees (src/vw/Geometry/SpatialTree.h, SpatialTree.cc).

    Coordinates are exact rationals: the rounding of doubles is not modelled.
    Points and query boxes have the dimension of the tree; where the code would
    throw on a mismatch, the tests below are false.  A primitive is a number;
    its bounding box and its two virtual functions are given by the context.
    The explicit stack of apply() (SEARCH_DFS, the only search type used here)
    is the call stack of the recursive functions below: the children pushed
    last are processed first.  closest(), the printing functions, check() and
    the destructor are not modelled. *)
From Verif Require Import Lib.Base Lib.Lists.
From Coq Require Import List Arith Bool ZArith QArith Qround.
Import ListNotations.

Notation iv := (Q * Q)%type.
Notation box := (list iv).

Fixpoint forall2b {A B} (f : A -> B -> bool) (l : list A) (m : list B) : bool :=
  match l, m with
  | [], [] => true
  | a :: l, b :: m => f a b && forall2b f l m
  | _, _ => false
  end.

Definition Qlt_b (a b : Q) : bool := negb (Qle_bool b a).

(** BBox.tcc 124-129: contains(point). *)
Definition contains_pt (b : box) (p : list Q) : bool :=
  match b with
  | [] => false
  | _ => forall2b (fun i x => Qle_bool (fst i) x && Qlt_b x (snd i)) b p
  end.

(** BBox.tcc 133-138: contains(bbox). *)
Definition contains (b c : box) : bool :=
  match b with
  | [] => false
  | _ => forall2b (fun i j => Qle_bool (fst i) (fst j) && Qle_bool (snd j) (snd i)) b c
  end.

(** BBox.tcc 142-151: intersects. *)
Definition intersects (b c : box) : bool :=
  match b with
  | [] => false
  | _ => forall2b (fun i j => negb (Qle_bool (snd j) (fst i)) && negb (Qle_bool (snd i) (fst j))) b c
  end.

(** BBox.tcc 156-160: empty. *)
Definition empty (b : box) : bool :=
  match b with
  | [] => true
  | _ => existsb (fun i => Qle_bool (snd i) (fst i)) b
  end.

(** BBox.tcc 82-106: grow(bbox). *)
Definition Qmin' (a b : Q) : Q := if Qlt_b b a then b else a.
Definition Qmax' (a b : Q) : Q := if Qlt_b a b then b else a.

Definition grow (b c : box) : box :=
  if empty c then b
  else match b with
       | [] => c
       | _ => map2 (fun i j => (Qmin' (Qmin' (fst i) (fst j)) (snd j),
                                Qmax' (Qmax' (snd i) (fst j)) (snd j))) b c
       end.

Definition size (i : iv) : Q := snd i - fst i.
Definition middle (i : iv) : Q := (1 # 2) * (fst i + snd i).

(** SpatialTree.cc 72-104: split_bbox.  The first half of the quadrants is below
    the centre in the first dimension, and so on.  The centre of an empty box
    is a vector without elements (BBox.tcc 217-220), and so are then the
    quadrants. *)
Definition lower (i : iv) : iv := (middle i - size i * (1 # 2), middle i).
Definition upper (i : iv) : iv := (middle i, middle i + size i * (1 # 2)).

Fixpoint quadrants (b : box) : list box :=
  match b with
  | [] => [[]]
  | i :: b => map (cons (lower i)) (quadrants b) ++ map (cons (upper i)) (quadrants b)
  end.

Definition split_bbox (b : box) : list box :=
  if empty b then repeat [] (2 ^ length b) else quadrants b.

(** SpatialTree.cc 112-156: grow_bbox_on_grid.  The factor 2^p is searched from
    p = 1 instead of the logarithm of the ratio of the sizes: the values in
    between leave a negative [extra] and are refused by the test.  A zero size
    is divided by; a shift of 32 or more is undefined. *)
Definition extra_needed (bs : iv * iv) : Q :=
  let '(i, s) := bs in
  let d := fst i - fst s in
  inject_Z (Qceiling (d / size i)) * size i - d.

Definition extra (p : nat) (bs : iv * iv) : Q :=
  let '(i, s) := bs in inject_Z (2 ^ Z.of_nat p) * size i - size s.

Fixpoint grid_loop (k : nat) (p : nat) (b super : box) : res box :=
  match k with
  | O => UB Overflow
  | S k =>
      let bs := combine b super in
      if forallb (fun x => Qle_bool (extra_needed x) (extra p x)) bs then
        Ok (map (fun x => (fst (snd x) - extra_needed x,
                           snd (snd x) + (extra p x - extra_needed x))) bs)
      else grid_loop k (S p) b super
  end.

Definition grow_bbox_on_grid (b nb : box) : res box :=
  let super := grow b nb in
  match b with
  | [] => if empty nb then Ok [] else Throw ArgumentErr
  | _ =>
      if existsb (fun i => Qeq_bool (size i) 0) b then UB DivByZero
      else grid_loop 31 1 b super
  end.

Section SpatialTree.
(** SpatialTree.h: GeomPrimitive, as seen by the tree. *)
Context (pbox : nat -> box) (pcontains : nat -> list Q -> bool) (pintersects : nat -> nat -> bool).

(** SpatialTree.h: PrimitiveListElem and SpatialTreeNode.  A node that is not
    split has no children.  m_num_primitives is not modelled. *)
Record elem := Elem { prim : nat; forced : bool }.

Inductive tree := Node (b : box) (l : list elem) (kids : list tree).

Definition tbox (t : tree) : box := match t with Node b _ _ => b end.
Definition tlist (t : tree) : list elem := match t with Node _ l _ => l end.
Definition tkids (t : tree) : list tree := match t with Node _ _ ks => ks end.

Definition leaf (b : box) : tree := Node b [] [].

(** ** Queries *)

(** SpatialTree.cc 497-516: ContainsOneFunctor; children before the node, the
    last child first, stopping at the first hit. *)
Definition hit (p : list Q) (e : elem) : bool :=
  contains_pt (pbox (prim e)) p && pcontains (prim e) p.

Fixpoint contains_one (p : list Q) (t : tree) : option nat :=
  match t with
  | Node b l kids =>
      if contains_pt b p then
        match fold_left (fun r k => match contains_one p k with Some x => Some x | None => r end) kids None with
        | Some x => Some x
        | None => match find (hit p) l with Some e => Some (prim e) | None => None end
        end
      else None
  end.

(** SpatialTree.cc 518-544: ContainsAllFunctor. *)
Fixpoint contains_all (p : list Q) (t : tree) : list nat :=
  match t with
  | Node b l kids =>
      if contains_pt b p then
        fold_left (fun r k => contains_all p k ++ r) kids [] ++ map prim (filter (hit p) l)
      else []
  end.

(** SpatialTree.cc 546-572: IntersectsAllFunctor. *)
Fixpoint intersects_all (q : box) (t : tree) : list nat :=
  match t with
  | Node b l kids =>
      if intersects b q then
        fold_left (fun r k => intersects_all q k ++ r) kids []
        ++ map prim (filter (fun e => intersects (pbox (prim e)) q) l)
      else []
  end.

(** SpatialTree.cc 574-601: AllOverlapsFunctor, node before children. *)
Definition overlaps (x : nat) (e : elem) : bool :=
  negb (Nat.eqb (prim e) x) && intersects (pbox (prim e)) (pbox x) && pintersects (prim e) x.

Fixpoint all_overlaps (x : nat) (t : tree) : list (nat * nat) :=
  match t with
  | Node b l kids =>
      if intersects b (pbox x) then
        map (fun e => (x, prim e)) (filter (overlaps x) l)
        ++ fold_left (fun r k => all_overlaps x k ++ r) kids []
      else []
  end.

(** SpatialTree.cc 603-628: OverlapPairsFunctor.  For each element the inner
    apply() starts at that element of the list. *)
Fixpoint list_overlaps (b : box) (l : list elem) (kids : list tree) : list (nat * nat) :=
  match l with
  | [] => []
  | e :: l' => all_overlaps (prim e) (Node b (e :: l') kids) ++ list_overlaps b l' kids
  end.

Fixpoint overlap_pairs (t : tree) : list (nat * nat) :=
  match t with
  | Node b l kids => list_overlaps b l kids ++ fold_left (fun r k => overlap_pairs k ++ r) kids []
  end.

(** ** Building *)

(** SpatialTree.cc 630-679: NodeContainsBBoxFunctor.  The nodes of the tree are
    named by the path from the root: the indices of the children. *)
Record found := Found {
  tree_node : option (list nat);
  first_split : option (list nat);
  forced_level : bool
}.

Definition nothing : found := Found None None false.

Definition is_nil {A} (l : list A) : bool := match l with [] => true | _ => false end.

Fixpoint visit_kids (f : list nat -> tree -> found -> res (tree * found))
    (path : list nat) (i : nat) (kids : list tree) (st : found) : res (list tree * found) :=
  match kids with
  | [] => Ok ([], st)
  | k :: ks =>
      '(ks, st) <- visit_kids f path (S i) ks st ;;
      '(k, st) <- f (path ++ [i]) k st ;;
      Ok (k :: ks, st)
  end.

Fixpoint visit (fuel : nat) (create : bool) (max_level : Z) (bb : box) (level : Z)
    (path : list nat) (t : tree) (st : found) : res (tree * found) :=
  match fuel with
  | O => UB NoTerm
  | S fuel =>
      let '(Node b l kids) := t in
      if negb (contains b bb) then Ok (t, st)
      else
        let '(kids, st) :=
          if create && is_nil kids then
            if (max_level <? 0)%Z || (level <? max_level)%Z then
              let qs := split_bbox b in
              (if existsb (fun q => contains q bb) qs then map leaf qs else kids,
               match first_split st with
               | None => Found (tree_node st) (Some path) (forced_level st)
               | Some _ => st
               end)
            else (kids, Found (tree_node st) (first_split st) true)
          else (kids, st) in
        '(kids, st) <- visit_kids (visit fuel create max_level bb (level + 1)) path 0 kids
                        (Found (Some path) (first_split st) (forced_level st)) ;;
        Ok (Node b l kids, st)
  end.

(** The node at a path, and its replacement. *)
Fixpoint at_path (path : list nat) (t : tree) : option tree :=
  match path with
  | [] => Some t
  | i :: path => match nth_error (tkids t) i with Some k => at_path path k | None => None end
  end.

Fixpoint replace (path : list nat) (f : tree -> tree) (t : tree) : tree :=
  match path with
  | [] => f t
  | i :: path =>
      match nth_error (tkids t) i with
      | Some k => Node (tbox t) (tlist t) (upd (tkids t) i (replace path f k))
      | None => t
      end
  end.

Definition volume (b : box) : Q := fold_right (fun i v => size i * v) 1 b.

Fixpoint first_index {A} (f : A -> bool) (i : nat) (l : list A) : option nat :=
  match l with
  | [] => None
  | a :: l => if f a then Some i else first_index f (S i) l
  end.

(** SpatialTree.cc 873-919: the part of add() that makes the tree larger.  The
    ratio of the volumes is compared by multiplying out. *)
Definition grow_root (fuel : nat) (t : tree) (nb : box) : res tree :=
  super <- grow_bbox_on_grid (tbox t) nb ;;
  '(root, st) <- visit fuel true (-1) (tbox t) 0 [] (leaf super) nothing ;;
  match tree_node st with
  | None => UB NullDeref
  | Some path =>
      match at_path path root with
      | None => UB NullDeref
      | Some n =>
          let nq := inject_Z (2 ^ Z.of_nat (length (tbox t))) in
          let '(root, path) :=
            if Qlt_b ((nq + 1) / 2 * volume (tbox t)) (volume (tbox n)) then
              let qs := split_bbox (tbox n) in
              (replace path (fun n => Node (tbox n) (tlist n) (map leaf qs)) root,
               match first_index (fun q => contains_pt q (map middle (tbox t))) 0 qs with
               | Some i => path ++ [i]
               | None => path
               end)
            else (root, path) in
          Ok (replace path (fun n => Node (tbox n) (tlist t) (tkids t)) root)
      end
  end.

Definition push (e : elem) (t : tree) : tree := Node (tbox t) (e :: tlist t) (tkids t).

Definition drop_nth {A} (i : nat) (l : list A) : list A := firstn i l ++ skipn (S i) l.

Definition remove_at (i : nat) (t : tree) : tree := Node (tbox t) (drop_nth i (tlist t)) (tkids t).

(** SpatialTree.cc 935-969: the elements of the first split node that were kept
    there only by the level limit are moved down.  [cur] and [i] say where
    list_elem is: after a move, list_elem->next is what follows it in its new
    list. *)
Fixpoint relocate (fuel : nat) (fs cur : list nat) (i : nat) (t : tree) : res tree :=
  match fuel with
  | O => UB NoTerm
  | S fuel' =>
      match at_path cur t with
      | None => UB NullDeref
      | Some c =>
          match nth_error (tlist c) i with
          | None => Ok t
          | Some e =>
              if forced e then
                match at_path fs t with
                | None => UB NullDeref
                | Some f =>
                    '(_, st) <- visit fuel false (-1) (pbox (prim e)) 0 [] f nothing ;;
                    match tree_node st with
                    | None => UB NullDeref
                    | Some [] => relocate fuel' fs cur (S i) t
                    | Some rel =>
                        match at_path (fs ++ rel) t with
                        | None => UB NullDeref
                        | Some n =>
                            let fl := is_nil (tkids n) &&
                                      existsb (fun q => contains q (pbox (prim e))) (split_bbox (tbox n)) in
                            let t := replace cur (remove_at i) t in
                            let t := replace (fs ++ rel) (push (Elem (prim e) fl)) t in
                            relocate fuel' fs (fs ++ rel) 1 t
                        end
                    end
                end
              else relocate fuel' fs cur (S i) t
          end
      end
  end.

(** SpatialTree.cc 866-970: add.  The first containment test refuses a box of
    another dimension. *)
Definition add (fuel : nat) (t : tree) (x : nat) (max_level : Z) : res tree :=
  if negb (is_nil (tbox t)) && negb (Nat.eqb (length (tbox t)) (length (pbox x))) then Throw ArgumentErr
  else
  t <- (if contains (tbox t) (pbox x) then Ok t else grow_root fuel t (pbox x)) ;;
  '(t, st) <- visit fuel true max_level (pbox x) 0 [] t nothing ;;
  match tree_node st with
  | None => UB NullDeref
  | Some path =>
      let t := replace path (push (Elem x (forced_level st))) t in
      match first_split st with
      | None => Ok t
      | Some fs => relocate fuel fs fs 0 t
      end
  end.

(** SpatialTree.cc 972-977: the constructor from a box. *)
Definition new_tree (b : box) : tree := leaf b.

(** SpatialTree.cc 106-110, 979-987: the constructor from primitives. *)
Fixpoint add_all (fuel : nat) (t : tree) (xs : list nat) (max_level : Z) : res tree :=
  match xs with
  | [] => Ok t
  | x :: xs => t <- add fuel t x max_level ;; add_all fuel t xs max_level
  end.

Definition of_prims (fuel : nat) (xs : list nat) (max_level : Z) : res tree :=
  match xs with
  | [] => Throw ArgumentErr
  | _ => add_all fuel (leaf (fold_left (fun b x => grow b (pbox x)) xs [])) xs max_level
  end.
End SpatialTree.
