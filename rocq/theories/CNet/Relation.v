(** The camera relation network: src/vw/BundleAdjustment/CameraRelation.{h,cc}.

    A feature is a number, its place in the heap; shared and weak pointers are
    such numbers.  (The features belong to the nodes, and live as long as the
    network.)  The matrices of a feature are left out. *)
From Coq Require Import List ZArith Bool.
From Verif Require Import Lib.Base Lib.Lists Lib.SMap CNet.Model.
Import ListNotations.
Open Scope nat_scope.

(** CameraRelation.h 41-62 and 104-109: a feature; [fmap] is std::map. *)
Record feature := Feat { fcamera : nat; fpoint : nat; fcol : Z; frow : Z; fcol_scale : Z; frow_scale : Z;
                         fconn : list nat; fmap : smap nat }.

(** CameraRelation.h 130-141: a node; [cmap] is std::multimap. *)
Record cnode := CNode { cid : nat; crelations : list nat; cmap : smap nat }.

(** CameraRelation.h 153-155: the network. *)
Record relation := Rel { rnodes : list cnode; rheap : list feature }.

Definition at_ {X} (l : list X) (i : nat) : res X :=
  match nth_error l i with Some x => Ok x | None => UB OutOfBounds end.
Definition modify_at {X} (l : list X) (i : nat) (f : X -> X) : res (list X) :=
  x <- at_ l i ;; Ok (upd l i (f x)).

Definition with_conn (l : list nat) (f : feature) : feature :=
  Feat (fcamera f) (fpoint f) (fcol f) (frow f) (fcol_scale f) (frow_scale f) l (fmap f).
Definition with_map (m : smap nat) (f : feature) : feature :=
  Feat (fcamera f) (fpoint f) (fcol f) (frow f) (fcol_scale f) (frow_scale f) (fconn f) m.
Definition with_relations (l : list nat) (n : cnode) : cnode := CNode (cid n) l (cmap n).
Definition with_cmap (m : smap nat) (n : cnode) : cnode := CNode (cid n) (crelations n) m.

(** CameraRelation.h 66-73: connection. *)
Definition connection (h : list feature) (f con : nat) (check : bool) : res (list feature) :=
  modify_at h f (fun x => if check && existsb (Nat.eqb con) (fconn x) then x else with_conn (fconn x ++ [con]) x).

(** CameraRelation.h 77-91: list_connections. *)
Fixpoint list_connections (fuel : nat) (h : list feature) (f : nat) (listing : list nat) : res (list nat) :=
  match fuel with
  | O => UB NoTerm
  | S fuel =>
      x <- at_ h f ;;
      (fix go (cs listing : list nat) : res (list nat) :=
         match cs with
         | [] => Ok listing
         | c :: cs =>
             if existsb (Nat.eqb c) listing then go cs listing
             else l <- list_connections fuel h c (listing ++ [c]) ;; go cs l
         end) (fconn x) listing
  end.

(** CameraRelation.h 93-97: build_map of a feature. *)
Fixpoint map_loop (h : list feature) (cs : list nat) (m : smap nat) : res (smap nat) :=
  match cs with
  | [] => Ok m
  | c :: cs => x <- at_ h c ;; map_loop h cs (assign (Z.of_nat (fcamera x)) c m)
  end.
Definition build_feature_map (h : list feature) (f : nat) : res (list feature) :=
  x <- at_ h f ;; m <- map_loop h (fconn x) [] ;; modify_at h f (with_map m).

(** CameraRelation.h 116-120: a feature from a measure; CameraRelation.cc 25-29:
    and back. *)
Definition new_feature (m : measure) (point : nat) : feature :=
  Feat (mimage m) point (mcol m) (mrow m) (mcol_sigma m) (mrow_sigma m) [] [].
Definition control_measure (f : feature) : measure :=
  new_measure (fcol f) (frow f) (fcol_scale f) (frow_scale f) (fcamera f).

(** CameraRelation.cc 53-56: the maps of the features of a node. *)
Fixpoint build_feature_maps (h : list feature) (fs : list nat) : res (list feature) :=
  match fs with
  | [] => Ok h
  | f :: fs => h <- build_feature_map h f ;; build_feature_maps h fs
  end.

(** std::multimap::insert: after the entries with the same key. *)
Definition multi_insert (k : Z) (v : nat) (m : smap nat) : smap nat := before (k + 1)%Z m ++ (k, v) :: from (k + 1)%Z m.

(** CameraRelation.cc 59-65: the map of a node. *)
Definition insert_keys (f : nat) (entries : smap nat) (m : smap nat) : smap nat :=
  fold_left (fun m e => multi_insert (fst e) f m) entries m.
Fixpoint node_map (h : list feature) (fs : list nat) (m : smap nat) : res (smap nat) :=
  match fs with
  | [] => Ok m
  | f :: fs => x <- at_ h f ;; node_map h fs (insert_keys f (fmap x) m)
  end.

(** CameraRelation.cc 44-67: build_map. *)
Fixpoint build_maps (h : list feature) (nodes : list cnode) : res (list feature * list cnode) :=
  match nodes with
  | [] => Ok (h, [])
  | n :: nodes =>
      h <- build_feature_maps h (crelations n) ;;
      m <- node_map h (crelations n) [] ;;
      '(h, nodes) <- build_maps h nodes ;;
      Ok (h, with_cmap m n :: nodes)
  end.
Definition build_map (r : relation) : res relation :=
  '(h, nodes) <- build_maps (rheap r) (rnodes r) ;; Ok (Rel nodes h).

(** CameraRelation.cc 76-77 and 86-87: new nodes, numbered from [i]. *)
Fixpoint new_nodes (i count : nat) : list cnode :=
  match count with O => [] | S count => CNode i [] [] :: new_nodes (S i) count end.

(** CameraRelation.cc 80-91: the features of the measures of a point. *)
Fixpoint add_features (point : nat) (ms : list measure) (r : relation) (added : list nat) : res (relation * list nat) :=
  match ms with
  | [] => Ok (r, added)
  | m :: ms =>
      let size := List.length (rnodes r) in
      let nodes := if size <=? mimage m then rnodes r ++ new_nodes size (S (mimage m) - size) else rnodes r in
      let f := List.length (rheap r) in
      nodes <- modify_at nodes (mimage m) (fun n => with_relations (crelations n ++ [f]) n) ;;
      add_features point ms (Rel nodes (rheap r ++ [new_feature m point])) (added ++ [f])
  end.

(** CameraRelation.cc 94-101: the two loops. *)
Fixpoint link_one (h : list feature) (first : nat) (rest : list nat) : res (list feature) :=
  match rest with
  | [] => Ok h
  | second :: rest =>
      h <- connection h first second false ;;
      h <- connection h second first false ;;
      link_one h first rest
  end.
Fixpoint link_all (h : list feature) (fs : list nat) : res (list feature) :=
  match fs with
  | [] => Ok h
  | first :: rest => h <- link_one h first rest ;; link_all h rest
  end.

(** CameraRelation.cc 79-102: the points.  Without features end() - 1 is not an
    iterator of the vector. *)
Fixpoint add_points (number : nat) (ps : list point) (r : relation) : res relation :=
  match ps with
  | [] => Ok r
  | p :: ps =>
      '(r, added) <- add_features number (pmeasures p) r [] ;;
      match added with
      | [] => UB BadIter
      | _ => h <- link_all (rheap r) added ;; add_points (S number) ps (Rel (rnodes r) h)
      end
  end.

(** CameraRelation.cc 69-105: from_cnet. *)
Definition from_cnet (net : network) : res relation :=
  r <- add_points 0 (npoints net) (Rel (new_nodes 0 (List.length (nimages net))) []) ;;
  build_map r.
