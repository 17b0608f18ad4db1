(** Frame trees and the frame store (src/vw/Geometry/FrameTreeNode.cc,
    FrameTreeNode.h, FrameStore.cc, Frame.h), on top of the tree nodes of
    Tree/Model.v.

    The heap holds every frame tree node that exists, whether or not it belongs
    to the store.  A FrameHandle (FrameHandle.h 36-49) is a pointer, NULL is
    [None].  The extras of a frame and the mutex are not modelled: one call at a
    time.  All calls check before they change anything, so a call that throws
    leaves the store as it was, with the one exception of add(name). *)
From Coq Require Import List Arith Bool ZArith Ascii String.
From Verif Require Import Lib.Base Lib.Lists Lib.Str Tree.Model.
Import ListNotations.
Open Scope nat_scope.

Section Frames.
Context {T : Type}.

(** Frame.h 115-118: the members, without m_extras. *)
Record frame := Frame { fname : str; ftrans : T }.

(** FrameStore.h 355-356: the root nodes. *)
Record store := Store { sheap : heap frame; sroots : list nat }.

Definition slash : ascii := "/"%char.

Definition node_name (h : heap frame) (n : nat) : res str := d <- data h n ;; Ok (fname d).

(** ** Paths (FrameTreeNode.cc) *)

(** FrameTreeNode.cc 137-144: from [start] to the next slash, and the rest. *)
Fixpoint scan (p : str) : str * str :=
  match p with
  | [] => ([], [])
  | c :: q => if Ascii.eqb c slash then ([], p) else let '(e, r) := scan q in (c :: e, r)
  end.

(** FrameTreeNode.cc 126-150: splitPath.  The increment of the loop after an
    element leaves the string when the element was the last one. *)
Fixpoint split_loop (fuel : nat) (p : str) : res (list str) :=
  match fuel with
  | O => UB NoTerm
  | S fuel =>
      match p with
      | [] => Ok []
      | c :: q =>
          if Ascii.eqb c slash then split_loop fuel q
          else
            let '(e, r) := scan p in
            l <- split_loop fuel (tl r) ;;
            Ok (if str_eqb e (lit ".") then l else e :: l)
      end
  end.

Definition split_path (p : str) : res (list str) := split_loop (S (List.length p)) p.

(** FrameTreeNode.cc 195-206: the first child with this name. *)
Fixpoint named (h : heap frame) (cs : list nat) (x : str) : res (option nat) :=
  match cs with
  | [] => Ok None
  | c :: cs => y <- node_name h c ;; if str_eqb y x then Ok (Some c) else named h cs x
  end.

(** FrameTreeNode.cc 175-190: the search for the rest of the path from the
    nodes in breadth-first order.  [rec] is the recursive call. *)
Fixpoint search (rec : nat -> res (option nat)) (h : heap frame) (fuel : nat) (nodes : list nat)
  : res (option nat) :=
  match fuel with
  | O => UB NoTerm
  | S fuel =>
      match nodes with
      | [] => Ok None
      | n :: rest =>
          r <- rec n ;;
          match r with
          | Some m => Ok (Some m)
          | None => cs <- children h n ;; search rec h fuel (rest ++ cs)
          end
      end
  end.

(** FrameTreeNode.cc 152-211: matchNode. *)
Fixpoint match_node (h : heap frame) (els : list str) (n : nat) : res (option nat) :=
  match els with
  | [] => Ok (Some n)
  | e :: next =>
      if str_eqb e (lit "..") then
        p <- parent h n ;;
        match p with None => Ok None | Some p => match_node h next p end
      else if str_eqb e (lit "...") then
        search (match_node h next) h (S (List.length h)) [n]
      else
        cs <- children h n ;;
        c <- named h cs e ;;
        match c with None => Ok None | Some c => match_node h next c end
  end.

Definition absolute (p : str) : bool :=
  match p with [] => false | c :: _ => Ascii.eqb c slash end.
Definition relative (p : str) : bool :=
  match p with [] => false | c :: _ => negb (Ascii.eqb c slash) end.

(** FrameTreeNode.cc 214-237: lookup. *)
Definition node_lookup (h : heap frame) (start : option nat) (path : str) : res (option nat) :=
  match start with
  | None => Ok None
  | Some s =>
      els <- split_path path ;;
      if absolute path then
        r <- root h s ;;
        match els with
        | [] => match_node h [] r
        | e :: next =>
            if str_eqb e (lit "...") then match_node h els r
            else
              x <- node_name h r ;;
              if str_eqb x e then match_node h next r else Ok None
        end
      else match_node h els s
  end.

(** ** Merging (FrameTreeNode.cc) *)

(** std::string operator<. *)
Fixpoint str_ltb (a b : str) : bool :=
  match a, b with
  | _, [] => false
  | [], _ :: _ => true
  | x :: a, y :: b =>
      if Ascii.eqb x y then str_ltb a b else (nat_of_ascii x <? nat_of_ascii y)
  end.

(** FrameTreeNode.cc 83-87 and 101-103: std::sort by name, on nodes paired with their
    names.  The order of nodes with the same name, which std::sort leaves open,
    is the one of an insertion sort. *)
Fixpoint insert_by_name (x : nat * str) (l : list (nat * str)) : list (nat * str) :=
  match l with
  | [] => [x]
  | y :: l' => if str_ltb (snd y) (snd x) then y :: insert_by_name x l' else x :: l
  end.

Definition sort_by_name (l : list (nat * str)) : list (nat * str) :=
  fold_right insert_by_name [] l.

Fixpoint with_names (h : heap frame) (l : list nat) : res (list (nat * str)) :=
  match l with
  | [] => Ok []
  | n :: l => x <- node_name h n ;; m <- with_names h l ;; Ok ((n, x) :: m)
  end.

(** FrameTreeNode.cc 108-111: the children of the target with smaller names are
    passed over. *)
Fixpoint skip_less (x : str) (l : list (nat * str)) : list (nat * str) :=
  match l with
  | [] => []
  | y :: l' => if str_ltb (snd y) x then skip_less x l' else l
  end.

(** FrameTreeNode.cc 105-120: the loop over the children of the source.  [rec]
    is the recursive call. *)
Fixpoint merge_loop (rec : heap frame -> nat -> nat -> res (heap frame)) (h : heap frame) (target : nat)
    (src tgt : list (nat * str)) : res (heap frame) :=
  match src with
  | [] => Ok h
  | (c, x) :: src =>
      let tgt := skip_less x tgt in
      h <- match tgt with
           | [] => set_parent h c (Some target)
           | (d, y) :: _ =>
               if str_ltb x y then set_parent h c (Some target)
               else if str_eqb x y then rec h d c
               else Ok h
           end ;;
      merge_loop rec h target src tgt
  end.

(** FrameTreeNode.cc 90-123: merge_frame_trees. *)
Fixpoint merge_fuel (fuel : nat) (h : heap frame) (target source : nat) : res (heap frame) :=
  match fuel with
  | O => UB NoTerm
  | S fuel =>
      x <- node_name h target ;;
      y <- node_name h source ;;
      if str_eqb x y then
        src <- children h source ;;
        match src with
        | [] => Ok h
        | _ =>
            tgt <- children h target ;;
            src <- with_names h src ;;
            tgt <- with_names h tgt ;;
            merge_loop (merge_fuel fuel) h target (sort_by_name src) (sort_by_name tgt)
        end
      else Ok h
  end.

Definition merge_frame_trees (h : heap frame) (target source : nat) : res (heap frame) :=
  merge_fuel (S (List.length h)) h target source.

(** ** The store: queries (FrameStore.cc) *)

(** VW_ASSERT(frame.node != NULL, LogicErr()). *)
Definition not_null (f : option nat) : res nat :=
  match f with None => Throw LogicErr | Some n => Ok n end.

(** FrameStore.cc 82-91: name. *)
Definition fs_name (st : store) (f : option nat) : res str :=
  n <- not_null f ;; node_name (sheap st) n.

(** FrameStore.cc 101-106 and 186-191: the names of the nodes, each after a
    slash. *)
Fixpoint joined (h : heap frame) (l : list nat) (acc : str) : res str :=
  match l with
  | [] => Ok acc
  | n :: l => x <- node_name h n ;; joined h l (acc ++ slash :: x)
  end.

Definition path_name (h : heap frame) (n : nat) : res str :=
  l <- ancestry h n ;; joined h l [].

(** FrameStore.cc 93-109: full_name. *)
Definition fs_full_name (st : store) (f : option nat) : res str :=
  n <- not_null f ;; path_name (sheap st) n.

(** FrameStore.cc 143-150 and 164-171: the first root that leads somewhere. *)
Fixpoint first_root (h : heap frame) (roots : list nat) (path : str) : res (option nat) :=
  match roots with
  | [] => Ok None
  | r :: roots =>
      m <- node_lookup h (Some r) path ;;
      match m with Some _ => Ok m | None => first_root h roots path end
  end.

(** FrameStore.cc 136-175: lookup. *)
Definition fs_lookup (st : store) (name : str) (scope : option nat) : res (option nat) :=
  let h := sheap st in
  r <- (if is scope None && relative name then first_root h (sroots st) (slash :: name) else Ok None) ;;
  match r with
  | Some _ => Ok r
  | None =>
      let path :=
        if relative name then
          if (List.length name <? 4) || negb (str_eqb (firstn 4 name) (lit ".../")) then lit ".../" ++ name
          else name
        else name in
      if is scope None || absolute path then first_root h (sroots st) path
      else node_lookup h scope path
  end.

(** FrameStore.cc 179-201: the functor Append, called for the nodes visited. *)
Fixpoint append_names (h : heap frame) (l : list event) : res (list str) :=
  match l with
  | [] => Ok []
  | Visit n :: l => x <- path_name h n ;; m <- append_names h l ;; Ok (x :: m)
  | _ :: l => append_names h l
  end.

(** FrameStore.cc 204-219: frame_names. *)
Fixpoint names_below (h : heap frame) (roots : list nat) : res (list str) :=
  match roots with
  | [] => Ok []
  | r :: roots =>
      ev <- pre_order_traverse h r ;;
      a <- append_names h ev ;;
      b <- names_below h roots ;;
      Ok (a ++ b)
  end.

Definition fs_frame_names (st : store) : res (list str) := names_below (sheap st) (sroots st).

(** FrameStore.cc 222-231: parent. *)
Definition fs_parent (st : store) (f : option nat) : res (option nat) :=
  n <- not_null f ;; parent (sheap st) n.

(** FrameStore.cc 233-242: root. *)
Definition fs_root (st : store) (f : option nat) : res (option nat) :=
  n <- not_null f ;; r <- root (sheap st) n ;; Ok (Some r).

(** FrameStore.cc 248-259: children. *)
Definition fs_children (st : store) (f : option nat) : res (list nat) :=
  match f with None => Ok (sroots st) | Some n => children (sheap st) n end.

(** FrameStore.cc 360-369: is_root. *)
Definition fs_is_root (st : store) (f : option nat) : res bool :=
  n <- not_null f ;; p <- parent (sheap st) n ;; Ok (is p None).

(** FrameStore.cc 371-380: is_leaf. *)
Definition fs_is_leaf (st : store) (f : option nat) : res bool :=
  n <- not_null f ;; nd <- get (sheap st) n ;; Ok (is (nfirst nd) None).

(** FrameStore.cc 382-391: is_ancestor_of. *)
Definition fs_is_ancestor_of (st : store) (f pop : option nat) : res bool :=
  n <- not_null f ;; m <- not_null pop ;; is_ancestor_of (sheap st) n m.

(** FrameStore.cc 512-524: is_member of a node. *)
Fixpoint member_loop (h : heap frame) (roots : list nat) (n : nat) : res bool :=
  match roots with
  | [] => Ok false
  | r :: roots =>
      if Nat.eqb r n then Ok true
      else b <- is_ancestor_of h r n ;; if b then Ok true else member_loop h roots n
  end.

(** FrameStore.cc 448-453: is_member. *)
Definition fs_is_member (st : store) (f : option nat) : res bool :=
  match f with None => Ok false | Some n => member_loop (sheap st) (sroots st) n end.

(** FrameStore.cc 526-553: assert_unique. *)
Definition assert_unique (st : store) (x : str) (p : option nat) : res unit :=
  cs <- match p with None => Ok (sroots st) | Some p => children (sheap st) p end ;;
  m <- named (sheap st) cs x ;;
  match m with None => Ok tt | Some _ => Throw LogicErr end.

(** ** The store: changes (FrameStore.cc) *)

(** VW_ASSERT(parent.node == NULL || is_member(parent), LogicErr()). *)
Definition check_parent (st : store) (p : option nat) : res unit :=
  match p with
  | None => Ok tt
  | Some _ => b <- fs_is_member st p ;; if b then Ok tt else Throw LogicErr
  end.

(** FrameStore.cc 274-296: add of a node. *)
Definition fs_add_node (st : store) (node p : option nat) : res store :=
  n <- not_null node ;;
  b <- fs_is_member st node ;;
  if b then Throw LogicErr else
  x <- node_name (sheap st) n ;;
  if str_eqb x [] then Throw LogicErr else
  _ <- check_parent st p ;;
  _ <- assert_unique st x p ;;
  h <- set_parent (sheap st) n p ;;
  Ok (Store h (match p with None => sroots st ++ [n] | Some _ => sroots st end)).

(** FrameStore.cc 263-272: add of a name.  The new node exists also when the
    second call throws: the store afterwards, and the frame or the exception. *)
Definition fs_add (st : store) (x : str) (p : option nat) (t : T) : res (store * res nat) :=
  '(h, n) <- new_node (sheap st) None (Frame x t) ;;
  match fs_add_node (Store h (sroots st)) (Some n) p with
  | Ok st' => Ok (st', Ok n)
  | Throw e => Ok (Store h (sroots st), Throw e)
  | UB u => UB u
  end.

(** std::find and erase. *)
Fixpoint erase (n : nat) (l : list nat) : list nat :=
  match l with
  | [] => []
  | m :: l => if Nat.eqb m n then l else m :: erase n l
  end.

(** FrameStore.cc 298-328: del. *)
Definition fs_del (st : store) (f : option nat) (recursive : bool) : res store :=
  n <- not_null f ;;
  let roots := erase n (sroots st) in
  if recursive then
    h <- recursive_delete (sheap st) n ;; Ok (Store h roots)
  else
    cs <- children (sheap st) n ;;
    h <- destroy (sheap st) n ;;
    Ok (Store h (roots ++ cs)).

(** FrameStore.cc 330-358: set_parent. *)
Definition fs_set_parent (st : store) (f p : option nat) : res store :=
  n <- not_null f ;;
  _ <- check_parent st p ;;
  q <- parent (sheap st) n ;;
  if is q p then Ok st else
  x <- node_name (sheap st) n ;;
  _ <- assert_unique st x p ;;
  let roots := erase n (sroots st) in
  h <- set_parent (sheap st) n p ;;
  Ok (Store h (match p with None => roots ++ [n] | Some _ => roots end)).

(** FrameStore.cc 470-473: the first root with this name. *)
Fixpoint merge_root (h : heap frame) (roots : list nat) (x : str) : res (option nat) :=
  match roots with
  | [] => Ok None
  | r :: roots => y <- node_name h r ;; if str_eqb y x then Ok (Some r) else merge_root h roots x
  end.

(** FrameStore.cc 455-483: merge_tree.  A NULL tree would be dereferenced. *)
Definition fs_merge_tree (st : store) (tree start : option nat) : res (store * bool) :=
  b <- fs_is_member st tree ;;
  if b then Throw LogicErr else
  match tree with
  | None => UB NullDeref
  | Some t =>
      x <- node_name (sheap st) t ;;
      match start with
      | Some s =>
          y <- node_name (sheap st) s ;;
          if negb (str_eqb x y) then Throw LogicErr else
          h <- merge_frame_trees (sheap st) t s ;;
          h <- recursive_delete h t ;;
          Ok (Store h (sroots st), true)
      | None =>
          r <- merge_root (sheap st) (sroots st) x ;;
          match r with
          | Some r =>
              h <- merge_frame_trees (sheap st) r t ;;
              h <- recursive_delete h t ;;
              Ok (Store h (sroots st), true)
          | None => Ok (Store (sheap st) (sroots st ++ [t]), false)
          end
      end
  end.

(** FrameStore.cc 33-40: the destructor. *)
Fixpoint delete_roots (h : heap frame) (roots : list nat) : res (heap frame) :=
  match roots with
  | [] => Ok h
  | r :: roots => h <- recursive_delete h r ;; delete_roots h roots
  end.

Definition fs_destroy (st : store) : res (heap frame) := delete_roots (sheap st) (sroots st).

(** FrameStore.cc 71-80: clone_tree; the copy does not belong to the store. *)
Definition fs_clone_tree (st : store) (f : option nat) : res (store * nat) :=
  n <- not_null f ;; '(h, m) <- clone (sheap st) n None ;; Ok (Store h (sroots st), m).

(** ** Transforms *)

(** The identity, product and inverse of transforms (ATrans.h). *)
Variable one : T.
Variable mul : T -> T -> T.
Variable inv : T -> res T.

(** FrameTreeNode.cc 55-57 and 71-73: the transforms of the nodes are
    multiplied. *)
Fixpoint multiplied (h : heap frame) (l : list nat) (loc : T) : res T :=
  match l with
  | [] => Ok loc
  | n :: l => d <- data h n ;; multiplied h l (mul loc (ftrans d))
  end.

(** FrameTreeNode.cc 47-53 and 65-71: what follows the ancestor. *)
Fixpoint after (n : nat) (l : list nat) : list nat :=
  match l with
  | [] => []
  | m :: l => if Nat.eqb m n then l else after n l
  end.

(** FrameTreeNode.cc 30-80: get_transform. *)
Definition node_transform (h : heap frame) (target source : option nat) : res T :=
  match source with
  | None => Ok one
  | Some s =>
      match target with
      | None => d <- data h s ;; Ok (ftrans d)
      | Some t =>
          if Nat.eqb t s then Ok one else
          a <- last_common_ancestor h t s ;;
          match a with
          | None => Ok one
          | Some a =>
              ts <- ancestry h t ;;
              loc <- match after a ts with
                     | [] => Ok one
                     | l => loc <- multiplied h l one ;; inv loc
                     end ;;
              ss <- ancestry h s ;;
              multiplied h (after a ss) loc
          end
      end
  end.

(** FrameTreeNode.h 77-83: get_transform_of. *)
Definition node_transform_of (h : heap frame) (target source : option nat) (t : T) : res T :=
  g <- node_transform h target source ;; Ok (mul g t).

(** Frame.h 101-103: set_transform of a frame. *)
Definition write_transform (h : heap frame) (n : nat) (t : T) : res (heap frame) :=
  d <- data h n ;; set_data h n (Frame (fname d) t).

(** FrameTreeNode.h 85-98: set_transform. *)
Definition node_set_transform (h : heap frame) (f source : option nat) (t : T) : res (heap frame) :=
  match f with
  | None => Ok h
  | Some n =>
      match source with
      | None => write_transform h n t
      | Some _ =>
          p <- parent h n ;;
          g <- node_transform_of h p source t ;;
          write_transform h n g
      end
  end.

(** FrameStore.cc 415-424: get_transform. *)
Definition fs_get_transform (st : store) (f source : option nat) : res T :=
  _ <- not_null source ;; node_transform (sheap st) f source.

(** FrameStore.cc 393-402: get_transform_of. *)
Definition fs_get_transform_of (st : store) (f source : option nat) (t : T) : res T :=
  _ <- not_null f ;; _ <- not_null source ;; node_transform_of (sheap st) f source t.

(** FrameStore.cc 426-435: set_transform. *)
Definition fs_set_transform (st : store) (f wrt : option nat) (t : T) : res store :=
  _ <- not_null f ;; h <- node_set_transform (sheap st) f wrt t ;; Ok (Store h (sroots st)).

(** FrameStore.cc 437-446: set_transform_rel. *)
Definition fs_set_transform_rel (st : store) (f : option nat) (t : T) : res store :=
  _ <- not_null f ;; h <- node_set_transform (sheap st) f None t ;; Ok (Store h (sroots st)).

(** FrameStore.cc 485-496: get_frame_transforms.  A NULL handle is
    dereferenced. *)
Fixpoint fs_get_frame_transforms (st : store) (l : list (option nat)) : res (list T) :=
  match l with
  | [] => Ok []
  | None :: _ => UB NullDeref
  | Some n :: l => d <- data (sheap st) n ;; m <- fs_get_frame_transforms st l ;; Ok (ftrans d :: m)
  end.

(** FrameStore.cc 498-510: set_frame_transforms. *)
Fixpoint set_transforms (h : heap frame) (l : list (option nat)) (ts : list T) : res (heap frame) :=
  match l, ts with
  | [], _ => Ok h
  | None :: _, _ => UB NullDeref
  | Some n :: l, t :: ts => h <- write_transform h n t ;; set_transforms h l ts
  | Some _ :: _, [] => UB BadIter
  end.

Definition fs_set_frame_transforms (st : store) (l : list (option nat)) (ts : list T) : res store :=
  if Nat.eqb (List.length l) (List.length ts) then
    h <- set_transforms (sheap st) l ts ;; Ok (Store h (sroots st))
  else Throw LogicErr.
End Frames.
Arguments frame : clear implicits.
Arguments store : clear implicits.
