(* Model of src/vw/Math/MinimumSpanningTree.{h,cc}: Kruskal's algorithm on top
   of the disjoint set structure, and the traversal of the tree.
   An edge primitive is its two node numbers and its cost; costs are integers
   (finitely many doubles are integers up to a common factor; only their order
   and sum matter).  qsort is not modelled: the functions take the already
   sorted array, and the theorems hold for every sorted permutation.  Node
   numbers are unbounded, so max_node - min_node + 1 does not overflow.  The
   edge tables are lists that grow; the code counts first and then fills. *)
From Coq Require Import ZArith List Lia Bool.
From Verif Require Import Lib.Base Lib.Lists DSet.Model.
Import ListNotations.
Local Open Scope Z_scope.

Record edge := Edge { node1 : Z; node2 : Z; cost : Z }.   (* MinimumSpanningTree.h:39-48 *)

(* array access with an int index *)
Definition get {A} (l : list A) (i : Z) : res A :=
  if i <? 0 then UB OutOfBounds else
  match nth_error l (Z.to_nat i) with Some a => Ok a | None => UB OutOfBounds end.
Definition set {A} (l : list A) (i : Z) (v : A) : res (list A) :=
  _ <- get l i ;; Ok (upd l (Z.to_nat i) v).

(* MinimumSpanningTree.cc:58-66, lower and upper end of the node numbers *)
Definition min_of (e0 : edge) (es : list edge) : Z :=
  fold_left (fun m e => Z.min (Z.min m (node1 e)) (node2 e)) es (Z.min (node1 e0) (node2 e0)).
Definition max_of (e0 : edge) (es : list edge) : Z :=
  fold_left (fun m e => Z.max (Z.max m (node1 e)) (node2 e)) es (Z.max (node1 e0) (node2 e0)).

(* MinimumSpanningTree.cc:71-76 *)
Fixpoint mark (mn : Z) (es : list edge) (u : list bool) : res (list bool) :=
  match es with
  | [] => Ok u
  | e :: t => u1 <- set u (node1 e - mn) true ;; u2 <- set u1 (node2 e - mn) true ;; mark mn t u2
  end.

(* MinimumSpanningTree.cc:83-89: the set element of each used node *)
Fixpoint elems (u : list bool) (k : Z) (h : heap Z) : list (option nat) * heap Z :=
  match u with
  | [] => ([], h)
  | true :: u' => let '(a, h1) := insert h k in let '(l, h2) := elems u' (k + 1) h1 in (Some a :: l, h2)
  | false :: u' => let '(l, h2) := elems u' (k + 1) h in (None :: l, h2)
  end.

(* MinimumSpanningTree.cc:91-102: the flags prim_used *)
Fixpoint kruskal (mn : Z) (ds : list (option nat)) (es : list edge) (h : heap Z) : res (list bool) :=
  match es with
  | [] => Ok []
  | e :: t =>
      d1 <- get ds (node1 e - mn) ;; d2 <- get ds (node2 e - mn) ;;
      '(s1, h1) <- find h d1 ;; '(s2, h2) <- find h1 d2 ;;
      if Nat.eqb s1 s2 then r <- kruskal mn ds t h2 ;; Ok (false :: r)
      else '(_, h3) <- combine h2 (Some s1) (Some s2) ;; r <- kruskal mn ds t h3 ;; Ok (true :: r)
  end.

(* MinimumSpanningTree.cc:104-119: the used edges at each node *)
Fixpoint tables (mn : Z) (es : list edge) (used : list bool) (T : list (list edge)) : res (list (list edge)) :=
  match es, used with
  | e :: es', true :: used' =>
      a <- get T (node1 e - mn) ;; T1 <- set T (node1 e - mn) (a ++ [e]) ;;
      b <- get T1 (node2 e - mn) ;; T2 <- set T1 (node2 e - mn) (b ++ [e]) ;; tables mn es' used' T2
  | _ :: es', _ :: used' => tables mn es' used' T
  | _, _ => Ok T
  end.

(* MinimumSpanningTree.h:66-74 *)
Record tree := Tree { prims : list edge; prim_used : list bool; min_node : Z; node_used : list bool; edges : list (list edge) }.

(* MinimumSpanningTree.cc:44-122.  [junk] is the value that the member
   num_primitives happens to have: line 45 tests it before it is set. *)
Definition construct (junk : Z) (es : list edge) : res tree :=
  if junk <=? 0 then Throw ArgumentErr else
  match es with
  | [] => UB OutOfBounds                          (* prims[0], line 58 *)
  | e0 :: es' =>
      let mn := min_of e0 es' in
      let n := Z.to_nat (max_of e0 es' - mn + 1) in
      u <- mark mn es (repeat false n) ;;
      let '(ds, h) := elems u mn [] in
      used <- kruskal mn ds es h ;;
      T <- tables mn es used (repeat [] n) ;;
      Ok (Tree es used mn u T)
  end.

(* MinimumSpanningTree.cc:161-175.  The log lists the calls of func: the edge
   and node_toward_root. *)
Fixpoint walk (fuel : nat) (t : tree) (node : Z) (v : list bool) : res (list bool * list (edge * Z)) :=
  match fuel with
  | O => UB NoTerm
  | S f =>
      let j := node - min_node t in
      if (j <? 0) || (Z.of_nat (length (node_used t)) <=? j) then Throw LogicErr else
      nu <- get (node_used t) j ;; if negb nu then Throw LogicErr else
      seen <- get v j ;; if (seen : bool) then Throw LogicErr else
      v1 <- set v j true ;;
      es <- get (edges t) j ;;
      (fix go (es : list edge) (v : list bool) : res (list bool * list (edge * Z)) :=
         match es with
         | [] => Ok (v, [])
         | e :: es' =>
             let next := if node =? node1 e then node2 e else node1 e in
             b <- get v (next - min_node t) ;;
             if (b : bool) then go es' v
             else '(v', l) <- walk f t next v ;; '(v'', l') <- go es' v' ;; Ok (v'', (e, node) :: l ++ l')
         end) es v1
  end.

(* MinimumSpanningTree.cc:149-156: start at every unvisited used node among the
   given indices *)
Fixpoint starts (fuel : nat) (t : tree) (is : list Z) (v : list bool) : res (list bool * list (edge * Z)) :=
  match is with
  | [] => Ok (v, [])
  | i :: is' =>
      nu <- get (node_used t) i ;; b <- get v i ;;
      if (nu : bool) && negb b
      then '(v1, l) <- walk fuel t (i + min_node t) v ;; '(v2, l') <- starts fuel t is' v1 ;; Ok (v2, l ++ l')
      else starts fuel t is' v
  end.

(* first used node at or after position i *)
Fixpoint seek (u : list bool) (i : Z) : Z :=
  match u with [] => i | b :: u' => if (b : bool) then i else seek u' (i + 1) end.

(* MinimumSpanningTree.cc:134-158 *)
Definition apply (t : tree) (start : Z) : res (list (edge * Z)) :=
  let n := Z.of_nat (length (node_used t)) in
  if n <=? 0 then Ok [] else
  let j0 := start - min_node t in
  let j1 := if (j0 <? 0) || (n <=? j0) then 0 else j0 in
  let j2 := seek (skipn (Z.to_nat j1) (node_used t)) j1 in
  let j := if n <=? j2 then seek (node_used t) 0 else j2 in
  nu <- (if (j <? 0) || (n <=? j) then Ok false else get (node_used t) j) ;;
  if negb nu then Throw LogicErr else
  '(_, l) <- starts (S (length (node_used t))) t (zrange j n ++ zrange 0 j) (repeat false (length (node_used t))) ;;
  Ok l.
