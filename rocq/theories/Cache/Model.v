(* Model of the resource cache: src/vw/Core/Cache.h, Cache.cc.
   Part 1 is the cache as one thread sees it, at the level of the linked-list
   pointers.  Part 2 (Conc.v) interleaves threads.
   Simplifications: sizes are unbounded integers (no size_t wrap-around);
   generators are functions of the line; statistics, log output and the size
   warning are left out; a lock that the only thread would wait for forever is
   the outcome UB NoTerm. *)
From Coq Require Import ZArith List Lia Bool.
From Verif Require Import Lib.Base.
Import ListNotations.
Local Open Scope Z_scope.

(* Cache.h:273 and CacheLineBase::m_prev, m_next (Cache.h:111).  A line is
   identified by a number standing for its address. *)
Definition line := nat.
Definition ptr := option line.
Record ptrs := Ptrs { fv : ptr; lv : ptr; fi : ptr; nx : line -> ptr; pv : line -> ptr }.

Definition peq (p : ptr) (l : line) : bool := match p with Some x => Nat.eqb x l | None => false end.
Definition upd {A} (f : line -> A) (l : line) (a : A) : line -> A := fun x => if Nat.eqb x l then a else f x.
(* x->m_next = v, guarded by if (x) as in the code *)
Definition set_nx (ps : ptrs) (x : ptr) (v : ptr) : ptrs :=
  match x with Some x => Ptrs (fv ps) (lv ps) (fi ps) (upd (nx ps) x v) (pv ps) | None => ps end.
Definition set_pv (ps : ptrs) (x : ptr) (v : ptr) : ptrs :=
  match x with Some x => Ptrs (fv ps) (lv ps) (fi ps) (nx ps) (upd (pv ps) x v) | None => ps end.
Definition set_fv (ps : ptrs) (v : ptr) : ptrs := Ptrs v (lv ps) (fi ps) (nx ps) (pv ps).
Definition set_lv (ps : ptrs) (v : ptr) : ptrs := Ptrs (fv ps) v (fi ps) (nx ps) (pv ps).
Definition set_fi (ps : ptrs) (v : ptr) : ptrs := Ptrs (fv ps) (lv ps) v (nx ps) (pv ps).

(* Extracting a line from its list: Cache.cc:161-164, 185-186, 201-202, 213-214 *)
Definition extract (ps : ptrs) (l : line) : ptrs :=
  let ps := set_pv ps (nx ps l) (pv ps l) in
  set_nx ps (pv ps l) (nx ps l).

(* Cache.cc:148-177 *)
Definition c_validate (ps : ptrs) (l : line) : ptrs :=
  if peq (fv ps) l then ps else
  let ps := if peq (lv ps) l then set_lv ps (pv ps l) else ps in
  let ps := if peq (fi ps) l then set_fi ps (nx ps l) else ps in
  let ps := extract ps l in
  let ps := set_nx ps (Some l) (fv ps) in
  let ps := set_pv ps (Some l) None in
  let ps := set_pv ps (fv ps) (Some l) in
  let ps := set_fv ps (Some l) in
  match lv ps with None => set_lv ps (Some l) | Some _ => ps end.

(* Cache.cc:179-192 *)
Definition c_invalidate (ps : ptrs) (l : line) : ptrs :=
  let ps := if peq (fv ps) l then set_fv ps (nx ps l) else ps in
  let ps := if peq (lv ps) l then set_lv ps (pv ps l) else ps in
  let ps := extract ps l in
  let ps := set_nx ps (Some l) (fi ps) in
  let ps := set_pv ps (Some l) None in
  let ps := set_pv ps (fi ps) (Some l) in
  set_fi ps (Some l).

(* Cache.cc:194-204 *)
Definition c_remove (ps : ptrs) (l : line) : ptrs :=
  let ps := if peq (fv ps) l then set_fv ps (nx ps l) else ps in
  let ps := if peq (lv ps) l then set_lv ps (pv ps l) else ps in
  let ps := if peq (fi ps) l then set_fi ps (nx ps l) else ps in
  let ps := extract ps l in
  set_nx (set_pv ps (Some l) None) (Some l) None.

(* Cache.cc:206-220; m_last_valid is dereferenced without a check *)
Definition c_deprioritize (ps : ptrs) (l : line) : res ptrs :=
  if peq (lv ps) l then Ok ps else
  let ps := if peq (fv ps) l then set_fv ps (nx ps l) else ps in
  let ps := extract ps l in
  let ps := set_pv ps (Some l) (lv ps) in
  let ps := set_nx ps (Some l) None in
  match lv ps with
  | None => UB NullDeref
  | Some _ => Ok (set_lv (set_nx ps (lv ps) (Some l)) (Some l))
  end.

(* ------------------------------------------------------------------ *)
(* State of the cache and its lines.  Cache.h:111-114, 179-182, 273-275.
   [pins] counts shared locks held on the line's mutex, [stuck] an exclusive
   lock that was never released. *)
Record st (V : Type) := St {
  ps : ptrs; csz : Z; cmax : Z; count : nat;
  live : line -> bool; lsize : line -> Z; lval : line -> option V; pins : line -> nat;
  stuck : line -> bool; gens : line -> nat }.
Arguments St {V}. Arguments ps {V}. Arguments csz {V}. Arguments cmax {V}. Arguments count {V}.
Arguments live {V}. Arguments lsize {V}. Arguments lval {V}. Arguments pins {V}. Arguments stuck {V}. Arguments gens {V}.

(* Cache.h:461-464 *)
Definition cache0 {V} (max : Z) : st V :=
  St (Ptrs None None None (fun _ => None) (fun _ => None)) 0 max 0
     (fun _ => false) (fun _ => 0) (fun _ => None) (fun _ => 0%nat) (fun _ => false) (fun _ => 0%nat).

Definition free {V} (s : st V) (l : line) : bool := Nat.eqb (pins s l) 0 && negb (stuck s l).

(* Cache::deallocate (Cache.cc:136-144) and m_value.reset() (Cache.h:322-323, 338-339) *)
Definition unload {V} (s : st V) (l : line) : st V :=
  St (c_invalidate (ps s) l) (csz s - lsize s l) (cmax s) (count s) (live s) (lsize s)
     (upd (lval s) l None) (pins s) (stuck s) (gens s).

(* CacheLine::invalidate, Cache.h:314-324: waits for the exclusive lock *)
Definition l_invalidate {V} (s : st V) (l : line) : res (st V) :=
  if free s l then Ok (match lval s l with None => s | Some _ => unload s l end) else UB NoTerm.

(* CacheLine::try_invalidate, Cache.h:326-343 *)
Definition try_invalidate {V} (s : st V) (l : line) : st V * bool :=
  if free s l then (match lval s l with None => s | Some _ => unload s l end, true) else (s, false).

(* Eviction loop of Cache::allocate, Cache.cc:63-83 *)
Fixpoint evict {V} (fuel : nat) (s : st V) (cur : ptr) (l : line) : res (st V) :=
  match fuel with
  | O => UB NoTerm
  | S f =>
    if csz s >? cmax s then
      match cur with
      | None => Ok s
      | Some v =>
        if Nat.eqb v l then Ok s
        else
          let '(s', done) := try_invalidate s v in
          if done then evict f s' (lv (ps s')) l else evict f s' (pv (ps s') v) l
      end
    else Ok s
  end.

(* Cache::allocate, Cache.cc:40-101 without the warning *)
Definition c_allocate {V} (fuel : nat) (s : st V) (l : line) : res (st V) :=
  let s := St (c_validate (ps s) l) (csz s + lsize s l) (cmax s) (count s) (live s) (lsize s)
              (lval s) (pins s) (stuck s) (gens s) in
  evict fuel s (lv (ps s)) l.

(* Cache::insert and CacheLine's constructor, Cache.h:466-471, 298-304 *)
Definition do_insert {V} (s : st V) (sz : Z) : st V * line :=
  let l := count s in
  (St (c_invalidate (ps s) l) (csz s) (cmax s) (S (count s)) (upd (live s) l true)
      (upd (lsize s) l sz) (upd (lval s) l None) (upd (pins s) l 0%nat) (upd (stuck s) l false) (upd (gens s) l 0%nat), l).

Section Ops.
  Context {V : Type}.
  Variable gen : line -> V.        (* what the line's generator produces *)

  (* CacheLine::value, Cache.h:354-377 *)
  Definition do_value (fuel : nat) (s : st V) (l : line) : res (st V * V) :=
    if stuck s l then UB NoTerm else
    match lval s l with
    | Some v => Ok (St (ps s) (csz s) (cmax s) (count s) (live s) (lsize s) (lval s)
                       (upd (pins s) l (S (pins s l))) (stuck s) (gens s), v)
    | None =>
      if Nat.eqb (pins s l) 0 then
        let s := St (ps s) (csz s) (cmax s) (count s) (live s) (lsize s) (lval s) (pins s) (upd (stuck s) l true) (gens s) in
        s <- c_allocate fuel s l ;;
        Ok (St (ps s) (csz s) (cmax s) (count s) (live s) (lsize s) (upd (lval s) l (Some (gen l)))
               (upd (pins s) l (S (pins s l))) (upd (stuck s) l false) (upd (gens s) l (S (gens s l))), gen l)
      else UB NoTerm
    end.

  (* value() when generate() throws: the exclusive lock stays, Cache.h:366-371 *)
  Definition do_value_throw (fuel : nat) (s : st V) (l : line) : res (st V) :=
    if stuck s l then UB NoTerm else
    match lval s l with
    | Some _ => Ok (St (ps s) (csz s) (cmax s) (count s) (live s) (lsize s) (lval s)
                       (upd (pins s) l (S (pins s l))) (stuck s) (gens s))
    | None =>
      if Nat.eqb (pins s l) 0 then
        let s := St (ps s) (csz s) (cmax s) (count s) (live s) (lsize s) (lval s) (pins s) (upd (stuck s) l true) (gens s) in
        s <- c_allocate fuel s l ;;
        Ok (St (ps s) (csz s) (cmax s) (count s) (live s) (lsize s) (lval s)
               (pins s) (stuck s) (upd (gens s) l (S (gens s l))))
      else UB NoTerm
    end.

  (* CacheLine::release, Cache.h:379-382; unlocking a lock not held is undefined *)
  Definition do_release (s : st V) (l : line) : res (st V) :=
    match pins s l with
    | O => UB BadIter
    | S n => Ok (St (ps s) (csz s) (cmax s) (count s) (live s) (lsize s) (lval s)
                    (upd (pins s) l n) (stuck s) (gens s))
    end.

  (* CacheLine::deprioritize, Cache.h:390-397 *)
  Definition do_deprioritize (s : st V) (l : line) : res (st V) :=
    if free s l then
      match lval s l with
      | None => Ok s
      | Some _ =>
        p <- c_deprioritize (ps s) l ;;
        Ok (St p (csz s) (cmax s) (count s) (live s) (lsize s) (lval s) (pins s) (stuck s) (gens s))
      end
    else UB NoTerm.

  (* Loop of Cache::resize, Cache.cc:116-125 *)
  Fixpoint shrink (fuel : nat) (s : st V) : res (st V) :=
    match fuel with
    | O => UB NoTerm
    | S f =>
      if csz s >? cmax s then
        match lv (ps s) with
        | None => Throw LogicErr
        | Some l => s <- l_invalidate s l ;; shrink f s
        end
      else Ok s
    end.
  (* Cache.cc:103-126 *)
  Definition do_resize (fuel : nat) (s : st V) (n : Z) : res (st V) :=
    shrink fuel (St (ps s) (csz s) n (count s) (live s) (lsize s) (lval s) (pins s) (stuck s) (gens s)).

  (* CacheLine's destructor, Cache.h:306-312 *)
  Definition do_drop (s : st V) (l : line) : res (st V) :=
    s <- l_invalidate s l ;;
    Ok (St (c_remove (ps s) l) (csz s) (cmax s) (count s) (upd (live s) l false) (lsize s)
           (lval s) (pins s) (stuck s) (gens s)).

  (* What a client does.  Using a handle whose line is gone throws NullPtrErr
     (Cache.h:407), modelled as LogicErr. *)
  Inductive cop :=
  | OInsert (sz : Z) | OValue (l : line) | ORelease (l : line) | ODepri (l : line)
  | OResize (n : Z) | ODrop (l : line).

  Definition fuel_of (s : st V) : nat := (S (S (count s)) * S (S (count s)))%nat.
  Definition with_line (s : st V) (l : line) (k : res (st V)) : res (st V) :=
    if live s l then k else Throw LogicErr.

  Definition step (s : st V) (o : cop) : res (st V) :=
    match o with
    | OInsert sz => Ok (fst (do_insert s sz))
    | OValue l => with_line s l (r <- do_value (fuel_of s) s l ;; Ok (fst r))
    | ORelease l => with_line s l (do_release s l)
    | ODepri l => with_line s l (do_deprioritize s l)
    | OResize n => do_resize (fuel_of s) s n
    | ODrop l => with_line s l (do_drop s l)
    end.

  Fixpoint steps (s : st V) (l : list cop) : res (st V) :=
    match l with
    | [] => Ok s
    | o :: t => s <- step s o ;; steps s t
    end.
End Ops.
