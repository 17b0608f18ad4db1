(** What a consistent frame store is, histories of calls, and the meaning of
    frame paths. *)
From Coq Require Import List Arith Bool ZArith Ascii String.
From Verif Require Import Lib.Base Lib.Lists Lib.Str Tree.Model Tree.Spec Frames.Model.
Import ListNotations.
Open Scope nat_scope.

Section Spec.
Context {T : Type}.
Implicit Types (h : heap (frame T)) (st : store T).

(** The frames of the store: the roots and all below them. *)
Definition member st n : Prop := exists r, In r (sroots st) /\ above (sheap st) r n.

(** The roots are listed once and have no parent. *)
Record sound st : Prop := Sound {
  sound_heap : grown (sheap st);
  sound_nodup : NoDup (sroots st);
  sound_roots : forall r, In r (sroots st) -> parent (sheap st) r = Ok None
}.

(** [a] and [b] are the same frame, or have different parents or names. *)
Definition apart h a b : Prop :=
  a = b \/ parent h a <> parent h b \/ node_name h a <> node_name h b.

(** No frame is without a name, no two with the same parent have the same
    name; the roots count as having the same parent. *)
Definition well_named st : Prop :=
  (forall n, member st n -> node_name (sheap st) n <> Ok []) /\
  (forall a b, member st a -> member st b -> apart (sheap st) a b).

(** The same for the tree below a node. *)
Definition tidy h n : Prop :=
  (forall m, above h n m -> node_name h m <> Ok []) /\
  (forall a b, above h n a -> above h n b -> apart h a b).

(** Parent, name and transform of a frame are the same. *)
Definition kept h h' n : Prop := parent h' n = parent h n /\ data h' n = data h n.

(** Has the name already been taken below this parent? *)
Definition taken st (x : str) (p : option nat) : Prop :=
  exists m, member st m /\ parent (sheap st) m = Ok p /\ node_name (sheap st) m = Ok x.

Definition member_opt st (p : option nat) : Prop :=
  match p with None => True | Some n => member st n end.

(** Without [n] the frame has no parent. *)
Definition orphan st n a : Prop :=
  a <> n /\ (parent (sheap st) a = Ok None \/ parent (sheap st) a = Ok (Some n)).

(** ** Histories *)

(** One call on frames that exist, or work on frames outside the store, by
    which the store becomes [st'].  No frame is moved below itself; a tree that
    is merged has no parent, and is merged with a frame of the store.  Where
    [strict] holds, trees that come into the store are tidy, and no frame is
    deleted without its children when these would become namesakes of roots. *)
Inductive call (strict : bool) st : store T -> Prop :=
| call_new p d h n : live_opt (sheap st) p -> (forall q, p = Some q -> ~ member st q) ->
    new_node (sheap st) p d = Ok (h, n) -> call strict st (Store h (sroots st))
| call_add x p t st' r : live_opt (sheap st) p -> fs_add st x p t = Ok (st', r) -> call strict st st'
| call_add_node n p st' : live (sheap st) n -> live_opt (sheap st) p ->
    (strict = true -> tidy (sheap st) n) ->
    fs_add_node st (Some n) p = Ok st' -> call strict st st'
| call_del n r st' : live (sheap st) n ->
    (strict = true -> r = false -> member st n /\
      forall a b, member st a -> member st b -> a <> b -> orphan st n a -> orphan st n b ->
        node_name (sheap st) a <> node_name (sheap st) b) ->
    fs_del st (Some n) r = Ok st' -> call strict st st'
| call_set_parent n p st' : live (sheap st) n -> live_opt (sheap st) p ->
    (forall q, p = Some q -> ~ above (sheap st) n q) ->
    (strict = true -> member st n \/ tidy (sheap st) n) ->
    fs_set_parent st (Some n) p = Ok st' -> call strict st st'
| call_merge t s st' b : parent (sheap st) t = Ok None -> member_opt st s ->
    well_named st -> tidy (sheap st) t ->
    fs_merge_tree st (Some t) s = Ok (st', b) -> call strict st st'
| call_clone n st' m : live (sheap st) n -> fs_clone_tree st (Some n) = Ok (st', m) -> call strict st st'
| call_write n t h : live (sheap st) n -> write_transform (sheap st) n t = Ok h ->
    call strict st (Store h (sroots st)).

Inductive history (strict : bool) : store T -> Prop :=
| history_empty : history strict (Store [] [])
| history_call st st' : history strict st -> call strict st st' -> history strict st'.

(** ** Names and paths *)

(** The names from the root down to a frame. *)
Inductive names_to h : nat -> list str -> Prop :=
| names_root n x : parent h n = Ok None -> node_name h n = Ok x -> names_to h n [x]
| names_child n p xs x : parent h n = Ok (Some p) -> names_to h p xs -> node_name h n = Ok x ->
    names_to h n (xs ++ [x]).

Definition slashed (xs : list str) : str := flat_map (cons slash) xs.

(** The names the documentation allows. *)
Definition proper (x : str) : Prop :=
  x <> [] /\ ~ In slash x /\ x <> lit "." /\ x <> lit ".." /\ x <> lit "...".

(** [at_path h n xs m]: from child to child with these names. *)
Inductive at_path h : nat -> list str -> nat -> Prop :=
| at_nil n : live h n -> at_path h n [] n
| at_cons n c x xs m : parent h c = Ok (Some n) -> node_name h c = Ok x -> at_path h c xs m ->
    at_path h n (x :: xs) m.

(** The same from the roots of the store, and from a node that counts as a
    root. *)
Definition from_node h n (xs : list str) m : Prop :=
  exists x ys, xs = x :: ys /\ node_name h n = Ok x /\ at_path h n ys m.

Definition placed st (xs : list str) m : Prop :=
  exists r, In r (sroots st) /\ from_node (sheap st) r xs m.

(** The elements of a path between the slashes. *)
Fixpoint slash_join (xs : list str) : str :=
  match xs with
  | [] => []
  | [x] => x
  | x :: xs => x ++ slash :: slash_join xs
  end.

Definition meant (x : str) : bool := negb (str_eqb x [] || str_eqb x (lit ".")).

Definition elements (path : str) (xs : list str) : Prop :=
  exists segs, (forall x, In x segs -> ~ In slash x) /\ path = slash_join segs /\ xs = filter meant segs.

(** The first of [l] for which the search leads somewhere. *)
Inductive first_hit (walk : nat -> option nat -> Prop) : list nat -> option nat -> Prop :=
| hit_none : first_hit walk [] None
| hit_here n l m : walk n (Some m) -> first_hit walk (n :: l) (Some m)
| hit_later n l r : walk n None -> first_hit walk l r -> first_hit walk (n :: l) r.

Definition no_dots (x : str) : Prop := x <> lit ".." /\ x <> lit "...".

(** Where the elements of a path lead: ".." to the parent, "..." to the first
    frame in breadth-first order from which the rest leads somewhere, a name to
    the child with this name. *)
Inductive walks h : list str -> nat -> option nat -> Prop :=
| walk_end n : walks h [] n (Some n)
| walk_up n p xs r : parent h n = Ok (Some p) -> walks h xs p r -> walks h (lit ".." :: xs) n r
| walk_out n xs : parent h n = Ok None -> walks h (lit ".." :: xs) n None
| walk_any n t xs r : tree_at h n t -> first_hit (walks h xs) (level_order t) r ->
    walks h (lit "..." :: xs) n r
| walk_child n c x xs r : no_dots x -> parent h c = Ok (Some n) -> node_name h c = Ok x ->
    walks h xs c r -> walks h (x :: xs) n r
| walk_lost n x xs : no_dots x ->
    (forall c, parent h c = Ok (Some n) -> node_name h c <> Ok x) -> walks h (x :: xs) n None.

(** Where an absolute path leads from a root: its first element names the
    root, unless it is "...". *)
Inductive root_walks h : list str -> nat -> option nat -> Prop :=
| root_end r : root_walks h [] r (Some r)
| root_any xs r o : walks h (lit "..." :: xs) r o -> root_walks h (lit "..." :: xs) r o
| root_this x xs r o : x <> lit "..." -> node_name h r = Ok x -> walks h xs r o -> root_walks h (x :: xs) r o
| root_other x xs r : x <> lit "..." -> node_name h r <> Ok x -> root_walks h (x :: xs) r None.

Definition leads st (xs : list str) (o : option nat) : Prop :=
  first_hit (root_walks (sheap st) xs) (sroots st) o.
End Spec.
