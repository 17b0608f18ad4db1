(** Properties of the frame store (C60, C61, C62). *)
From Coq Require Import List Arith Bool ZArith Lia Ascii String.
From Verif Require Import Lib.Base Lib.Lists Lib.Str Tree.Model Tree.Spec Tree.Proofs Tree.Trees Tree.Copy Tree.Props
  Frames.Model Frames.Spec Frames.Above Frames.Store Frames.Merge Frames.Calls Frames.Names.
Import ListNotations.
Open Scope nat_scope.

(** ** C60: the forest *)

(** Whatever calls are made on existing frames, in whatever order, and whatever
    is done to trees outside the store, as long as no frame is moved below
    itself: the roots of the store are listed once and have no parent, and no
    frame is its own ancestor. *)
Theorem store_stays_sound {T} (st : store T) : history false st -> sound st.
Proof. apply history_sound. Qed.

(** When the trees that come into the store are tidy, and del without the
    children is only used where the children find no namesakes, every frame has
    a name, and no two frames with the same parent have the same name. *)
Theorem store_names_unique {T} (st : store T) : history true st -> sound st /\ well_named st.
Proof. intros H. split; [exact (history_sound true st H)|exact (history_named st H)]. Qed.

(** is_member() tells whether a frame is a root or below one. *)
Theorem is_member_exact {T} (st : store T) n : sound st -> live (sheap st) n ->
  exists b, fs_is_member st (Some n) = Ok b /\ (b = true <-> member st n).
Proof. apply is_member_ok. Qed.

(** add(name, parent, transform) makes one new frame with this name, parent and
    transform, without children, and leaves all others as they are.  It throws LogicErr
    exactly if the name is empty, the parent is not in the store, or has a child of that
    name; and then no frame has come or gone. *)
Theorem add_adds_frame {T} (st : store T) x p t : sound st -> live_opt (sheap st) p ->
  exists st' r, fs_add st x p t = Ok (st', r) /\ sound st' /\
    ((x = [] \/ ~ member_opt st p \/ taken st x p) /\ r = Throw LogicErr /\ (forall m, member st' m <-> member st m) /\
       (forall m, member st m -> kept (sheap st) (sheap st') m) \/
     (x <> [] /\ member_opt st p /\ ~ taken st x p) /\ exists n, r = Ok n /\ ~ live (sheap st) n /\
       parent (sheap st') n = Ok p /\ data (sheap st') n = Ok (Frame x t) /\ children (sheap st') n = Ok [] /\
       (forall m, member st' m <-> member st m \/ m = n) /\
       (forall m, m <> n -> kept (sheap st) (sheap st') m)).
Proof.
  intros S Lp. destruct (new_sound st None (Frame x t) S I) as (h & n & E1 & Nl & Ln & S1 & Mem & P & D & C & K); [discriminate|].
  destruct (add_ok st x p t S Lp) as (h0 & n0 & E0 & _ & _ & _ & _ & _ & _ & Cases).
  rewrite E1 in E0. injection E0 as <- <-.
  assert (Nm : ~ member st n) by (intros M; exact (Nl (member_live _ _ M))).
  destruct Cases as [(Why & E)|(Hx & Mp & Tk & st1 & E & E2)].
  - exists (Store h (sroots st)), (Throw LogicErr). split; [exact E|]. split; [exact S1|]. left. split; [exact Why|].
    split; [reflexivity|]. split; [exact Mem|]. intros m M. apply K. intros ->. contradiction.
  - assert (Lp1 : live_opt h p) by (destruct p as [q|]; [apply Mem in Mp; exact (member_live _ _ Mp)|exact I]).
    destruct (add_node_ok (Store h (sroots st)) n p S1 Ln Lp1) as [(E3 & _)|(A1 & A2 & A3 & (y & Ey & Hy & A4) & E3)]; [congruence|].
    destruct (move_ok (Store h (sroots st)) n p S1 Ln A2 A3) as (h' & E4 & S4 & Mem4 & P4 & Q4 & D4 & C4).
    cbn [sheap] in E4, E3, Q4, D4, C4, Mem4. rewrite E4 in E3. cbn [bind] in E3.
    rewrite E2 in E3. injection E3 as ->. eexists _, (Ok n). split; [exact E|]. split; [exact S4|]. right. split; [auto|].
    exists n. split; [reflexivity|]. split; [exact Nl|]. split; [exact P4|]. cbn [sheap]. split; [rewrite D4; exact D|]. split.
    + rewrite (C4 n [] C). destruct p as [q|]; cbn [is]; [|reflexivity]. destruct (Nat.eqb_spec q n) as [->|_]; [|reflexivity].
      exfalso. cbn [member_opt] in Mp. contradiction.
    + split; [|intros m Hm; destruct (K m Hm); split; [rewrite Q4 by exact Hm; assumption|rewrite D4; assumption]].
      intros m. rewrite Mem4, Mem. split; intros [H|H]; auto; right.
      * (* nothing is below the new frame *)
        clear - H C S1. destruct (links h n (sound_heap _ S1) (above_live_top _ _ _ H)) as (cs & E & _ & Hc).
        rewrite C in E. injection E as <-. cbn [sheap] in *. induction H as [m L|n p m P A IH]; [reflexivity|].
        specialize (IH C Hc). subst p. apply Hc in P. destruct P.
      * subst m. constructor. exact Ln.
Qed.

(** add(tree, parent) puts a tree of frames that are not in the store below a
    frame, or among the roots, and changes nothing else.  It throws LogicErr
    exactly if the tree is already in the store, its name is empty or taken, or
    the parent is not in the store. *)
Theorem add_adds_tree {T} (st : store T) n p x : sound st -> live_opt (sheap st) p -> node_name (sheap st) n = Ok x ->
  ((member st n \/ x = [] \/ ~ member_opt st p \/ taken st x p) /\ fs_add_node st (Some n) p = Throw LogicErr) \/
  ((~ member st n /\ x <> [] /\ member_opt st p /\ ~ taken st x p) /\
   exists st', fs_add_node st (Some n) p = Ok st' /\ sound st' /\
     (forall m, member st' m <-> member st m \/ above (sheap st) n m) /\
     sroots st' = (match p with None => sroots st ++ [n] | Some _ => sroots st end) /\
     parent (sheap st') n = Ok p /\ (forall m, m <> n -> parent (sheap st') m = parent (sheap st) m) /\
     (forall m, data (sheap st') m = data (sheap st) m)).
Proof.
  intros S Lp Ex. assert (L : live (sheap st) n).
  { unfold node_name in Ex. destruct (data (sheap st) n) eqn:D; try discriminate. apply live_data. eauto. }
  destruct (add_node_ok st n p S L Lp) as [(E1 & Why)|(A1 & A2 & A3 & (y & Ey & Hy & A4) & E1)].
  - left. split; [|exact E1]. destruct Why as [H|[H|[H|(y & Ey & H)]]]; auto.
    + right. left. congruence.
    + assert (y = x) by congruence. subst y. auto.
  - right. assert (y = x) by congruence. subst y. split; [auto|].
    destruct (move_ok st n p S L A2 A3) as (h' & E' & S' & Mem & P & Q & D & _). rewrite E' in E1. cbn [bind] in E1.
    eexists. split; [exact E1|]. split; [exact S'|]. split; [exact Mem|]. split; [|auto].
    cbn [sroots]. unfold roots_after. rewrite erase_absent; [reflexivity|].
    intros I. exact (A1 (root_member st n S I)).
Qed.

Lemma erase_remove n l : NoDup l -> erase n l = remove Nat.eq_dec n l.
Proof.
  induction 1 as [|x l N ND IH]; [reflexivity|]. cbn [erase remove].
  destruct (Nat.eqb_spec x n) as [H|H]; destruct (Nat.eq_dec n x) as [H'|H']; try congruence.
  subst x. symmetry. apply notin_remove. exact N.
Qed.

(** set_parent() makes a frame that is not above the new parent its child, or a
    root, with all that is below it, and changes nothing else.  It throws
    LogicErr exactly if the new parent is not in the store, or another child of
    it has the same name. *)
Theorem set_parent_moves_frame {T} (st : store T) n p x : sound st -> live_opt (sheap st) p ->
  member st n -> node_name (sheap st) n = Ok x -> (forall q, p = Some q -> ~ above (sheap st) n q) ->
  ((~ member_opt st p \/ (parent (sheap st) n <> Ok p /\ taken st x p)) /\ fs_set_parent st (Some n) p = Throw LogicErr) \/
  ((member_opt st p /\ (parent (sheap st) n = Ok p \/ ~ taken st x p)) /\
   exists st', fs_set_parent st (Some n) p = Ok st' /\ sound st' /\
     (forall m, member st' m <-> member st m) /\
     (parent (sheap st) n <> Ok p -> sroots st' = remove Nat.eq_dec n (sroots st) ++ match p with None => [n] | Some _ => [] end) /\
     parent (sheap st') n = Ok p /\ (forall m, m <> n -> parent (sheap st') m = parent (sheap st) m) /\
     (forall m, data (sheap st') m = data (sheap st) m)).
Proof.
  intros S Lp M Ex N. assert (L := member_live _ _ M).
  destruct (set_parent_store st n p S L Lp) as [(E1 & Why)|[(A1 & A2 & E1)|(A1 & A2 & (y & Ey & A3) & E1)]].
  - left. split; [|exact E1]. destruct Why as [H|(H & y & Ey & H')]; [auto|]. assert (y = x) by congruence. subst y. auto.
  - right. split; [auto|]. exists st. split; [exact E1|]. split; [exact S|]. split; [tauto|]. split; [contradiction|]. split; [exact A2|]. auto.
  - right. assert (y = x) by congruence. subst y. split; [auto|].
    destruct (move_ok st n p S L A1 N) as (h' & E' & S' & Mem & P & Q & D & _). rewrite E' in E1. cbn [bind] in E1.
    eexists. split; [exact E1|]. split; [exact S'|]. split; [|split; [|auto]].
    + intros m. rewrite Mem. split; [intros [H|H]; [exact H|exact (member_down st n m M H)]|auto].
    + intros _. cbn [sroots]. unfold roots_after. rewrite <- (erase_remove n _ (sound_nodup st S)).
      destruct p; [rewrite app_nil_r|]; reflexivity.
Qed.

(** del(frame) deletes the frame and all below it, and nothing else. *)
Theorem del_deletes_tree {T} (st : store T) n : sound st -> live (sheap st) n ->
  exists st', fs_del st (Some n) true = Ok st' /\ sound st' /\
    (forall m, live (sheap st') m <-> live (sheap st) m /\ ~ above (sheap st) n m) /\
    (forall m, live (sheap st') m -> kept (sheap st) (sheap st') m) /\
    (forall m, member st' m <-> member st m /\ ~ above (sheap st) n m).
Proof.
  intros S L. destruct (del_rec_ok st n S L) as (h' & E & S' & A & B & C).
  eexists. split; [exact E|]. split; [exact S'|]. auto.
Qed.

(** del(frame, false) deletes the one frame; its children, in their order,
    become the last roots. *)
Theorem del_deletes_one {T} (st : store T) n cs : sound st -> member st n -> children (sheap st) n = Ok cs ->
  exists st', fs_del st (Some n) false = Ok st' /\ sound st' /\
    sroots st' = remove Nat.eq_dec n (sroots st) ++ cs /\
    (forall m, live (sheap st') m <-> live (sheap st) m /\ m <> n) /\
    (forall m, member st' m <-> member st m /\ m <> n) /\
    (forall m, m <> n -> data (sheap st') m = data (sheap st) m) /\
    (forall m, m <> n -> ~ In m cs -> parent (sheap st') m = parent (sheap st) m) /\
    (forall m, In m cs -> parent (sheap st') m = Ok None).
Proof.
  intros S M C. assert (L := member_live _ _ M). pose proof (sound_heap st S) as G.
  destruct (del_one_ok st n S L) as (h' & cs' & C' & E & S' & Lv & Dt & Pr & Mem). rewrite C in C'. injection C' as <-.
  destruct (links (sheap st) n G L) as (cs' & C' & _ & Hc). rewrite C in C'. injection C' as <-.
  eexists. split; [exact E|]. split; [exact S'|]. cbn [sheap sroots]. split.
  { f_equal. exact (erase_remove n _ (sound_nodup st S)). }
  split; [exact Lv|]. split.
  { intros m. rewrite Mem. split; [intros ([H|H] & Hm); [auto|split; [exact (member_down st n m M H)|exact Hm]]|tauto]. }
  split; [exact Dt|]. split.
  - intros m Hm Nc. destruct (parent (sheap st) m) as [q| |] eqn:P.
    + rewrite (Pr m q Hm P). destruct q as [q|]; cbn [is]; [|reflexivity]. destruct (Nat.eqb_spec q n) as [->|_]; [|reflexivity].
      exfalso. apply Nc, Hc, P.
    + exfalso. unfold parent in P. rewrite get_lk in P. destruct (lk (sheap st) m); discriminate.
    + destruct (parent h' m) as [q| |] eqn:P'.
      * exfalso. assert (Lm : live h' m) by exact (parent_live _ _ _ P'). apply Lv in Lm as (Lm & _). apply live_parent in Lm as (q' & Q). congruence.
      * unfold parent in P'. rewrite get_lk in P'. destruct (lk h' m); discriminate.
      * unfold parent in P, P'. rewrite get_lk in P, P'. destruct (lk (sheap st) m), (lk h' m); try discriminate. congruence.
  - intros m I. apply Hc in I. assert (Hm : m <> n) by (intros ->; exact (no_self _ _ G I)).
    rewrite (Pr m (Some n) Hm I). cbn [is]. rewrite Nat.eqb_refl. reflexivity.
Qed.

(** The destructor deletes exactly the frames of the store. *)
Theorem destructor_deletes_all {T} (st : store T) : sound st ->
  exists h', fs_destroy st = Ok h' /\
    (forall m, live h' m <-> live (sheap st) m /\ ~ member st m) /\
    (forall m, live h' m -> kept (sheap st) h' m).
Proof.
  intros S. destruct (delete_roots_ok (sroots st) (sheap st) (sound_heap st S) (sound_nodup st S) (sound_roots st S)) as (h' & E & _ & Lv & K).
  exists h'. auto.
Qed.

(** clone_tree() copies a tree, with the children of every frame in the
    opposite order; the copy is not in the store, and the store is as it was. *)
Theorem clone_tree_detached {T} (st : store T) n t d : sound st -> tree_at (sheap st) n t -> payload (sheap st) t d ->
  exists st' m t', fs_clone_tree st (Some n) = Ok (st', m) /\ sound st' /\ sroots st' = sroots st /\
    tree_at (sheap st') m t' /\ payload (sheap st') t' (mirror d) /\ parent (sheap st') m = Ok None /\
    (forall k, In k (ids t') -> ~ live (sheap st) k /\ ~ member st' k) /\
    (forall k, member st' k <-> member st k) /\
    (forall k, live (sheap st) k -> kept (sheap st) (sheap st') k).
Proof.
  intros S Ht Pd. pose proof (sound_heap st S) as G.
  assert (L : live (sheap st) n).
  { destruct t as [n' ts]. apply tree_at_inv in Ht as (_ & cs & C & _). apply children_inv in C as (nd & L & _). apply live_lk. eauto. }
  destruct (clone_copies (sheap st) n None t d G Ht Pd I) as (h' & m & t' & E & G' & Ht' & Pt' & Pm & Nl & K & Ch); [discriminate|].
  destruct (clone_sound st n S L) as (h1 & m1 & E1 & E1' & S1 & Mem & K1).
  rewrite E in E1'. injection E1' as <- <-.
  exists (Store h' (sroots st)), m, t'. split; [exact E1|]. split; [exact S1|]. split; [reflexivity|]. cbn [sheap].
  split; [exact Ht'|]. split; [exact Pt'|]. split; [exact Pm|]. split; [|split; [exact Mem|exact K1]].
  intros k I. split; [exact (Nl k I)|]. rewrite Mem. intros M. exact (Nl k I (member_live _ _ M)).
Qed.

(** root(), children(), is_root(), is_leaf() and is_ancestor_of() answer
    according to the parents. *)
Theorem queries_exact {T} (st : store T) n : sound st -> live (sheap st) n ->
  (exists r, fs_root st (Some n) = Ok (Some r) /\ above (sheap st) r n /\ parent (sheap st) r = Ok None /\ (member st n -> In r (sroots st))) /\
  (exists cs, fs_children st (Some n) = Ok cs /\ NoDup cs /\ forall c, In c cs <-> parent (sheap st) c = Ok (Some n)) /\
  (exists b, fs_is_root st (Some n) = Ok b /\ (b = true <-> parent (sheap st) n = Ok None)) /\
  (exists b, fs_is_leaf st (Some n) = Ok b /\ (b = true <-> forall c, parent (sheap st) c <> Ok (Some n))) /\
  (forall a, exists b, fs_is_ancestor_of st (Some a) (Some n) = Ok b /\ (b = true <-> above (sheap st) a n /\ a <> n)).
Proof.
  intros S L. pose proof (sound_heap st S) as G. destruct (links (sheap st) n G L) as (cs & C & ND & Hc).
  split; [|split; [exists cs; auto|split; [|split]]].
  - destruct (root_is_top (sheap st) n G L) as (r & E & A & P). exists r. unfold fs_root. cbn [not_null bind]. rewrite E.
    split; [reflexivity|]. split; [exact A|]. split; [exact P|]. intros (r' & I & A').
    rewrite (above_roots_eq _ _ _ _ P (sound_roots st S r' I) A A'). exact I.
  - unfold fs_is_root. cbn [not_null bind]. pose proof L as L'. apply live_parent in L' as (p & P). rewrite P. cbn [bind].
    eexists. split; [reflexivity|]. destruct p; cbn [is]; split; congruence.
  - unfold fs_is_leaf. cbn [not_null bind]. unfold children in C. destruct (get (sheap st) n) as [nd| |]; try discriminate. cbn [bind] in *.
    eexists. split; [reflexivity|]. destruct (nfirst nd) as [c|]; cbn [is].
    + split; [discriminate|]. intros N. exfalso. cbn [siblings] in C.
      destruct (get (sheap st) c); cbn [bind] in C; try discriminate.
      destruct (siblings _ _ _); cbn [bind] in C; try discriminate. injection C as <-. apply (N c), Hc. left. reflexivity.
    + split; [|reflexivity]. intros _ c P. apply Hc in P. injection C as <-. destruct P.
  - intros a. unfold fs_is_ancestor_of. cbn [not_null bind]. exact (is_ancestor_of_correct (sheap st) a n G L).
Qed.

(** The NULL handle is refused by all these calls; it is not in the store. *)
Theorem null_handles_refused {T} (st : store T) p x :
  fs_name st None = Throw LogicErr /\ fs_full_name st None = Throw LogicErr /\ fs_parent st None = Throw LogicErr /\
  fs_root st None = Throw LogicErr /\ fs_is_root st None = Throw LogicErr /\ fs_is_leaf st None = Throw LogicErr /\
  fs_is_ancestor_of st None p = Throw LogicErr /\ (forall n, fs_is_ancestor_of st (Some n) None = Throw LogicErr) /\
  fs_add_node st None p = Throw LogicErr /\ fs_del st None x = Throw LogicErr /\ fs_set_parent st None p = Throw LogicErr /\
  fs_clone_tree st None = Throw LogicErr /\ fs_is_member st None = Ok false.
Proof. repeat split; reflexivity. Qed.

(** *** Findings *)

(** children() of the NULL handle does not throw, as the header says, but lists
    the roots. *)
Theorem children_of_null_refuted {T} (st : store T) : fs_children st None = Ok (sroots st).
Proof. reflexivity. Qed.

(** Without moving any frame or adding a tree, del(frame, false) makes two
    roots of the same name. *)
Theorem names_stay_unique_refuted :
  exists (st st' : store nat) n, history true st /\ well_named st /\ member st n /\
    fs_del st (Some n) false = Ok st' /\ ~ well_named st'.
Proof.
  pose (s1 := match fs_add (Store [] []) (lit "a") None 0 with Ok (s, _) => s | _ => Store [] [] end).
  pose (s2 := match fs_add s1 (lit "b") None 0 with Ok (s, _) => s | _ => s1 end).
  pose (s3 := match fs_add s2 (lit "b") (Some 0) 0 with Ok (s, _) => s | _ => s2 end).
  pose (s4 := match fs_del s3 (Some 0) false with Ok s => s | _ => s3 end).
  assert (H1 : history true s1).
  { apply (history_call true (Store [] [])); [constructor|]. eapply (call_add true _ (lit "a") None 0); [exact I|reflexivity]. }
  assert (H2 : history true s2).
  { apply (history_call true s1); [exact H1|]. eapply (call_add true _ (lit "b") None 0); [exact I|reflexivity]. }
  assert (H3 : history true s3).
  { apply (history_call true s2); [exact H2|]. eapply (call_add true _ (lit "b") (Some 0) 0); [eexists; reflexivity|reflexivity]. }
  exists s3, s4, 0. split; [exact H3|]. split; [exact (history_named _ H3)|].
  assert (Ab : forall (h : heap (frame nat)) r, live h r -> above h r r) by (intros; constructor; assumption).
  split; [exists 0; split; [left; reflexivity|apply Ab; eexists; reflexivity]|]. split; [reflexivity|].
  intros (_ & W). destruct (W 1 2) as [H|[H|H]].
  - exists 1. split; [vm_compute; tauto|apply Ab; eexists; reflexivity].
  - exists 2. split; [vm_compute; tauto|apply Ab; eexists; reflexivity].
  - discriminate.
  - apply H. reflexivity.
  - apply H. reflexivity.
Qed.

(** add(name, parent, transform) leaves a frame behind that nobody can reach when it
    throws. *)
Theorem add_failure_leaks_refuted {T} (st : store T) x p t : sound st -> live_opt (sheap st) p ->
  x = [] \/ ~ member_opt st p \/ taken st x p ->
  exists st' n, fs_add st x p t = Ok (st', Throw LogicErr) /\
    ~ live (sheap st) n /\ live (sheap st') n /\ ~ member st' n.
Proof.
  intros S Lp Why. destruct (add_ok st x p t S Lp) as (h & n & _ & Nl & _ & Mem & _ & P & _ & Cases).
  destruct Cases as [(_ & E)|(A & B & C & _)]; [|tauto].
  exists (Store h (sroots st)), n. split; [exact E|]. split; [exact Nl|]. split; [exact (parent_live _ _ _ P)|].
  rewrite Mem. intros M. exact (Nl (member_live _ _ M)).
Qed.

(** set_parent() does not ask whether the frame is in the store: a frame that
    is not comes into it, without a name if it has none. *)
Theorem set_parent_takes_strangers_refuted :
  exists (st st' : store nat) n, history true st /\ live (sheap st) n /\ ~ member st n /\ node_name (sheap st) n = Ok [] /\
    fs_add_node st (Some n) (Some 0) = Throw LogicErr /\ fs_set_parent st (Some n) (Some 0) = Ok st' /\ member st' n.
Proof.
  pose (s1 := match fs_add (Store [] []) (lit "a") None 0 with Ok (s, _) => s | _ => Store [] [] end).
  pose (h2 := match new_node (sheap s1) None (Frame [] 0) with Ok (h, _) => h | _ => [] end).
  pose (s2 := Store h2 (sroots s1)).
  pose (s3 := match fs_set_parent s2 (Some 1) (Some 0) with Ok s => s | _ => s2 end).
  assert (H1 : history true s1).
  { apply (history_call true (Store [] [])); [constructor|]. eapply (call_add true _ (lit "a") None 0); [exact I|reflexivity]. }
  assert (H2 : history true s2).
  { apply (history_call true s1); [exact H1|]. apply (call_new true s1 None (Frame [] 0) h2 1); [exact I|discriminate|reflexivity]. }
  exists s2, s3, 1. split; [exact H2|].
  assert (L1 : live (sheap s2) 1) by (eexists; reflexivity).
  split; [exact L1|]. split.
  { destruct (is_member_exact s2 1 (history_sound _ _ H2) L1) as (b & E & Hb). vm_compute in E. injection E as <-. rewrite <- Hb. discriminate. }
  split; [reflexivity|]. split; [reflexivity|]. split; [reflexivity|].
  exists 0. split; [left; reflexivity|]. apply (above_parent _ 0 0 1); [reflexivity|]. constructor. eexists. reflexivity.
Qed.

(** set_parent() accepts a frame below itself as its parent.  Then a question
    about any of these frames, which have left the store, never returns. *)
Theorem set_parent_loses_frames_refuted :
  exists (st st' : store nat), history true st /\ member st 0 /\ member st 1 /\ member st 2 /\
    fs_set_parent st (Some 0) (Some 1) = Ok st' /\ sroots st' = [2] /\
    fs_is_member st' (Some 0) = UB NoTerm /\ fs_is_member st' (Some 1) = UB NoTerm.
Proof.
  pose (s1 := match fs_add (Store [] []) (lit "a") None 0 with Ok (s, _) => s | _ => Store [] [] end).
  pose (s2 := match fs_add s1 (lit "b") (Some 0) 0 with Ok (s, _) => s | _ => s1 end).
  pose (s3 := match fs_add s2 (lit "c") None 0 with Ok (s, _) => s | _ => s2 end).
  pose (s4 := match fs_set_parent s3 (Some 0) (Some 1) with Ok s => s | _ => s3 end).
  assert (H1 : history true s1).
  { apply (history_call true (Store [] [])); [constructor|]. eapply (call_add true _ (lit "a") None 0); [exact I|reflexivity]. }
  assert (H2 : history true s2).
  { apply (history_call true s1); [exact H1|]. eapply (call_add true _ (lit "b") (Some 0) 0); [eexists; reflexivity|reflexivity]. }
  assert (H3 : history true s3).
  { apply (history_call true s2); [exact H2|]. eapply (call_add true _ (lit "c") None 0); [exact I|reflexivity]. }
  assert (Is : forall n, live (sheap s3) n -> fs_is_member s3 (Some n) = Ok true -> member s3 n).
  { intros n L E. destruct (is_member_exact s3 n (history_sound _ _ H3) L) as (b & E' & Hb). apply Hb. congruence. }
  exists s3, s4. split; [exact H3|].
  split; [apply Is; [eexists; reflexivity|reflexivity]|]. split; [apply Is; [eexists; reflexivity|reflexivity]|].
  split; [apply Is; [eexists; reflexivity|reflexivity]|]. split; [reflexivity|]. split; [reflexivity|]. split; reflexivity.
Qed.

(** ** C61: names and paths *)

(** full_name() is the names from the root down to the frame, each after a
    slash. *)
Theorem full_name_from_root {T} (st : store T) n : sound st -> live (sheap st) n ->
  exists xs, names_to (sheap st) n xs /\ fs_full_name st (Some n) = Ok (slashed xs).
Proof. intros S L. unfold fs_full_name. cbn [not_null bind]. exact (path_name_ok (sheap st) n (sound_heap st S) L). Qed.

(** frame_names() lists the full name of every frame of the store, each frame
    once, the trees one after another and each frame before those below it. *)
Theorem frame_names_complete {T} (st : store T) : sound st ->
  exists ts l, Forall2 (tree_at (sheap st)) (sroots st) ts /\ fs_frame_names st = Ok l /\
    Forall2 (fun n s => fs_full_name st (Some n) = Ok s) (flat_map ids ts) l /\
    NoDup (flat_map ids ts) /\ (forall m, In m (flat_map ids ts) <-> member st m).
Proof.
  intros S. pose proof (sound_heap st S) as G.
  destruct (names_below_ok (sheap st) G (sroots st) (sound_roots st S)) as (ts & l & F & E & Fl).
  destruct (forest_ids st ts S F) as (ND & Mem).
  exists ts, l. split; [exact F|]. split; [exact E|]. split; [|split; [exact ND|exact Mem]].
  clear - Fl Mem S. assert (A : forall m, In m (flat_map ids ts) -> live (sheap st) m) by (intros m I; apply Mem in I; exact (member_live _ _ I)).
  clear Mem. revert A. induction Fl as [|n s ns l (xs & Nx & ->) Fl IH]; intros A; constructor.
  - destruct (full_name_from_root st n S (A n (or_introl eq_refl))) as (ys & Ny & E). rewrite E. f_equal. f_equal.
    exact (names_to_det _ _ _ Ny _ Nx).
  - apply IH. intros m I. apply A. right. exact I.
Qed.

(** A path is cut at the slashes; empty elements and "." are left out. *)
Theorem split_path_elements (segs : list str) : (forall x, In x segs -> ~ In slash x) ->
  split_path (slash_join segs) = Ok (filter meant segs).
Proof. intros A. apply split_path_ok. exists segs. auto. Qed.

(** Every path has such elements. *)
Theorem every_path_splits p : exists segs, segs <> [] /\ (forall x, In x segs -> ~ In slash x) /\ p = slash_join segs.
Proof. exact (segments_exist p). Qed.

(** The full name of a frame leads back to it, whatever the scope, if the names
    on the way are proper and names are unique. *)
Theorem lookup_full_name {T} (st : store T) n xs scope : sound st -> well_named st -> member st n ->
  names_to (sheap st) n xs -> (forall x, In x xs -> proper x) ->
  fs_lookup st (slashed xs) scope = Ok (Some n).
Proof.
  intros S W M Nx A.
  assert (Pl : placed st xs n).
  { destruct M as (r & I & B). exists r. split; [exact I|]. exact (names_to_place _ _ _ Nx r B (sound_roots st S r I)). }
  assert (Nn : xs <> []) by (destruct Pl as (r & _ & x & ys & -> & _); discriminate).
  pose proof (elements_proper xs Nn A) as El.
  assert (Sl : exists p, slashed xs = slash :: p) by (destruct xs; [contradiction|eexists; reflexivity]).
  destruct Sl as (p & Sl). rewrite Sl in *.
  destruct (roots_absolute st (slash :: p) xs S eq_refl El) as (o & E & L).
  assert (o = Some n).
  { apply (leads_down st xs n S W); [|exact Pl|exact L]. intros x I. destruct (A x I) as (_ & _ & _ & H). exact H. }
  subst o. unfold fs_lookup. cbn [relative absolute]. rewrite Ascii.eqb_refl. cbn [negb]. rewrite andb_false_r. cbn [bind absolute].
  rewrite Ascii.eqb_refl, orb_true_r. exact E.
Qed.

(** What lookup() returns.  An absolute path is followed from the roots.  A
    relative one, without a scope, is first taken for absolute; then, and with
    a scope, it is searched for, in breadth-first order, below each root or
    below the scope. *)
Definition searched (name : str) (els : list str) : list str :=
  if starts (lit ".../") name then els else lit "..." :: els.

Theorem lookup_follows_path {T} (st : store T) name els scope : sound st -> live_opt (sheap st) scope -> elements name els ->
  exists o, fs_lookup st name scope = Ok o /\
    match name with
    | [] => o = match scope with Some s => Some s | None => hd_error (sroots st) end
    | c :: _ =>
        if Ascii.eqb c slash then leads st els o
        else match scope with
             | Some s => walks (sheap st) (searched name els) s o
             | None => exists o1, leads st els o1 /\
                 match o1 with
                 | Some m => o = Some m
                 | None => first_hit (walks (sheap st) (searched name els)) (sroots st) o
                 end
             end
    end.
Proof.
  intros S Ls El. pose proof (sound_heap st S) as G. destruct name as [|c name'].
  - unfold fs_lookup. cbn [relative absolute]. rewrite andb_false_r. cbn [bind]. rewrite orb_false_r.
    destruct scope as [s|]; cbn [is].
    + exists (Some s). split; reflexivity.
    + exists (hd_error (sroots st)). split; [|reflexivity]. destruct (sroots st); reflexivity.
  - destruct (Ascii.eqb c slash) eqn:Ec.
    + unfold fs_lookup. cbn [relative absolute]. rewrite Ec. cbn [negb]. rewrite andb_false_r. cbn [bind absolute].
      rewrite Ec, orb_true_r. apply (roots_absolute st (c :: name') els S); [exact Ec|exact El].
    + set (name := c :: name') in *.
      assert (Rel : relative name = true) by (unfold name; cbn [relative]; rewrite Ec; reflexivity).
      set (path := if (List.length name <? 4) || negb (str_eqb (firstn 4 name) (lit ".../")) then lit ".../" ++ name else name).
      assert (Ab : absolute path = false).
      { unfold path. destruct (_ || _); [reflexivity|]. unfold name. exact Ec. }
      assert (Elp : elements path (searched name els)).
      { unfold path, searched.
        assert (X : (List.length name <? 4) || negb (str_eqb (firstn 4 name) (lit ".../")) = negb (starts (lit ".../") name)).
        { clear. destruct (starts (lit ".../") name) eqn:E.
          - apply starts_spec in E as (u & ->). reflexivity.
          - cbn [negb]. destruct (Nat.ltb_spec (List.length name) 4) as [|L]; [reflexivity|]. cbn [orb]. apply negb_true_iff.
            destruct (str_eqb (firstn 4 name) (lit ".../")) eqn:F; [|reflexivity]. apply str_eqb_spec in F. exfalso.
            assert (starts (lit ".../") name = true); [|congruence]. apply starts_spec. exists (skipn 4 name).
            rewrite <- F. symmetry. apply firstn_skipn. }
        rewrite X. destruct (starts (lit ".../") name); cbn [negb]; [exact El|apply elements_dots, El]. }
      unfold fs_lookup. rewrite Rel. cbn [negb]. fold path. rewrite Ab, orb_false_r, andb_true_r.
      destruct scope as [s|]; cbn [is bind].
      * exact (relative_lookup _ s path _ G Ls Ab Elp).
      * destruct (roots_absolute st (slash :: name) els S eq_refl (elements_slash _ _ El)) as (o1 & -> & L1). cbn [bind].
        destruct o1 as [m|]; [exists (Some m); split; [reflexivity|]; exists (Some m); auto|].
        destruct (roots_relative st path _ S Ab Elp) as (o & E & F). exists o. split; [exact E|]. exists None. auto.
Qed.

(** What is found is in the store, if the scope is. *)
Theorem lookup_finds_member {T} (st : store T) name scope m : sound st -> member_opt st scope ->
  fs_lookup st name scope = Ok (Some m) -> member st m.
Proof.
  intros S Ms E. destruct (elements_exist name) as (els & El).
  assert (Ls : live_opt (sheap st) scope) by (destruct scope; [exact (member_live _ _ Ms)|exact I]).
  destruct (lookup_follows_path st name els scope S Ls El) as (o & E' & H). rewrite E in E'. injection E' as <-.
  assert (Ld : forall k, leads st els (Some k) -> member st k).
  { intros k L. apply hit_in in L as (r & I & W). exact (root_walks_member st _ r _ S W (root_member st r S I) k eq_refl). }
  destruct name as [|c name].
  - destruct scope as [s|]; [injection H as ->; exact Ms|]. destruct (sroots st) as [|r l] eqn:R; [discriminate|].
    injection H as ->. apply (root_member st r S). rewrite R. left. reflexivity.
  - destruct (Ascii.eqb c slash); [exact (Ld m H)|]. destruct scope as [s|].
    + exact (walks_member st _ S s _ H Ms m eq_refl).
    + destruct H as ([k|] & L & H); [injection H as ->; exact (Ld k L)|].
      apply hit_in in H as (r & I & W). exact (walks_member st _ S r _ W (root_member st r S I) m eq_refl).
Qed.

Lemma levels_complete k : forall ts t m, In t ts -> In m (ids t) -> fsize ts <= k -> In m (levels k ts).
Proof.
  induction k as [|k IH]; intros ts t m It Im F.
  - destruct ts as [|t0 ts]; [destruct It|]. rewrite fsize_cons in F. pose proof (tsize_pos t0). lia.
  - assert (Sz : fsize (flat_map tsub ts) + List.length ts = fsize ts).
    { clear. induction ts as [|[n us] ts IH]; [reflexivity|]. cbn [flat_map tsub List.length].
      rewrite fsize_app, fsize_cons, tsize_eq. lia. }
    destruct ts as [|t0 ts0]; [destruct It|]. set (ts := t0 :: ts0) in *.
    change (In m (map tid ts ++ levels k (flat_map tsub ts))). apply in_app_iff. destruct t as [n us].
    destruct Im as [<-|Im].
    + left. exact (in_map tid ts (Spec.T n us) It).
    + right. apply in_flat_map in Im as (u & Iu & Im). apply (IH _ u m); [|exact Im|unfold ts in *; cbn [List.length] in Sz; lia].
      apply in_flat_map. exists (Spec.T n us). auto.
Qed.

Lemma level_order_below {T} (h : heap (frame T)) n t : grown h -> live h n -> tree_at h n t ->
  forall m, In m (level_order t) <-> above h n m.
Proof.
  intros G L Ht m. split; [exact (level_below h n t G L Ht m)|]. intros A.
  apply (levels_complete _ [t] t); [left; reflexivity| |rewrite fsize_cons; cbn [fsize fold_right]; lia].
  exact (proj2 (tree_above _ _ _ (grown_good _ G) (grown_path _ G n L) Ht m) A).
Qed.

(** A single name leads to a frame of this name below the scope, or anywhere in
    the store if there is no scope, and to nothing only if there is none. *)
Theorem lookup_finds_name {T} (st : store T) x scope : sound st -> member_opt st scope -> proper x ->
  exists o, fs_lookup st x scope = Ok o /\
    let candidate m := node_name (sheap st) m = Ok x /\
      match scope with Some s => above (sheap st) s m /\ m <> s | None => member st m end in
    match o with Some m => candidate m | None => forall m, ~ candidate m end.
Proof.
  intros S Ms Px. pose proof (sound_heap st S) as G. destruct Px as (Hne & Hs & H1 & H2 & H3).
  assert (Ls : live_opt (sheap st) scope) by (destruct scope; [exact (member_live _ _ Ms)|exact I]).
  assert (El : elements x [x]).
  { exists [x]. split; [intros y [<-|[]]; exact Hs|]. split; [reflexivity|].
    rewrite meant_cons, proper_meant by (repeat split; assumption). reflexivity. }
  destruct (lookup_follows_path st x [x] scope S Ls El) as (o & E & H). exists o. split; [exact E|].
  assert (Se : searched x [x] = [lit "..."; x]).
  { unfold searched. destruct (starts (lit ".../") x) eqn:Q; [|reflexivity]. apply starts_spec in Q as (u & ->).
    exfalso. apply Hs. cbn. tauto. }
  rewrite Se in H. destruct x as [|c x'] eqn:Ex; [contradiction|]. rewrite <- Ex in *.
  assert (Ec : Ascii.eqb c slash = false).
  { destruct (Ascii.eqb_spec c slash) as [->|]; [|reflexivity]. exfalso. apply Hs. rewrite Ex. left. reflexivity. }
  rewrite Ec in H. clear Ec. clear Ex.
  (* below one frame *)
  assert (Below : forall s p, live (sheap st) s -> walks (sheap st) [lit "..."; x] s p ->
            match p with
            | Some m => node_name (sheap st) m = Ok x /\ above (sheap st) s m /\ m <> s
            | None => forall m, ~ (node_name (sheap st) m = Ok x /\ above (sheap st) s m /\ m <> s)
            end).
  { intros s p Lv W.
    assert (X : exists t, tree_at (sheap st) s t /\ first_hit (walks (sheap st) [x]) (level_order t) p).
    { inversion W as [|? ? ? ? P' W'|? ? P'|? t ? ? Ht F|? c' ? ? ? Nd P' E' W'|? ? ? Nd L]; subst.
      - exists t. auto.
      - exfalso. apply (proj2 Nd). reflexivity.
      - exfalso. apply (proj2 Nd). reflexivity. }
    destruct X as (t & Ht & F). clear W. destruct p as [m|].
    - apply hit_in in F as (k & Ik & Wk). apply (level_order_below _ _ _ G Lv Ht) in Ik.
        inversion Wk as [|? ? ? ? P' W'|? ? P'|? t' ? ? Ht' F'|? c' ? ? ? Nd P' E' W'|]; subst;
          try (exfalso; apply H2; reflexivity); try (exfalso; apply H3; reflexivity).
        inversion W'; subst. split; [exact E'|]. split; [exact (above_trans _ _ _ _ Ik (above_up _ _ _ G P'))|].
        intros ->. exact (not_below_parent _ _ _ G P' Ik).
    - intros m (Em & A & Hm). apply above_cases in A as [->|(q & Q & A)]; [contradiction|].
        pose proof (hit_none_all _ _ F q (proj2 (level_order_below _ _ _ G Lv Ht q) A)) as Wq.
        inversion Wq as [|? ? ? ? P' W'|? ? P'|? t' ? ? Ht' F'|? c' ? ? ? Nd P' E' W'|? ? ? Nd L]; subst;
          try (exfalso; apply H2; reflexivity); try (exfalso; apply H3; reflexivity).
        * inversion W'.
        * exact (L m Q Em).
  }
  destruct scope as [s|].
  - specialize (Below s o Ls H). cbv zeta. destruct o; exact Below.
  - cbv zeta. destruct H as (o1 & L & H).
    assert (Rt : forall r p, root_walks (sheap st) [x] r p -> match p with Some m => m = r /\ node_name (sheap st) r = Ok x | None => node_name (sheap st) r <> Ok x end).
    { intros r p Wp. inversion Wp as [|zs ? ? W'|z zs ? ? Nz Ez W'|z zs ? Nz Ez]; subst.
      - exfalso. apply H3. reflexivity.
      - inversion W'; subst. auto.
      - exact Ez. }
    destruct o1 as [m|].
    + subst o. apply hit_in in L as (r & I & W). destruct (Rt r _ W) as (-> & Er). split; [exact Er|exact (root_member st r S I)].
    + destruct o as [m|].
      * apply hit_in in H as (r & I & W). destruct (Below r _ (member_live _ _ (root_member st r S I)) W) as (Em & A & _).
        split; [exact Em|]. exists r. auto.
      * intros m (Em & (r & I & A)).
        destruct (Nat.eq_dec m r) as [->|Hm]; [exact (Rt r None (hit_none_all _ _ L r I) Em)|].
        exact (Below r None (member_live _ _ (root_member st r S I)) (hit_none_all _ _ H r I) m (conj Em (conj A Hm))).
Qed.

(** A scope does not restrict the search to what is below it: an absolute path,
    and a path with "..", lead elsewhere. *)
Theorem lookup_stays_below_scope_refuted :
  exists (st : store nat), history true st /\ member st 0 /\ member st 1 /\ ~ above (sheap st) 1 0 /\
    fs_lookup st (lit "/a") (Some 1) = Ok (Some 0) /\ fs_lookup st (lit "..") (Some 1) = Ok (Some 0).
Proof.
  pose (s1 := match fs_add (Store [] []) (lit "a") None 0 with Ok (s, _) => s | _ => Store [] [] end).
  pose (s2 := match fs_add s1 (lit "b") (Some 0) 0 with Ok (s, _) => s | _ => s1 end).
  assert (H1 : history true s1).
  { apply (history_call true (Store [] [])); [constructor|]. eapply (call_add true _ (lit "a") None 0); [exact I|reflexivity]. }
  assert (H2 : history true s2).
  { apply (history_call true s1); [exact H1|]. eapply (call_add true _ (lit "b") (Some 0) 0); [eexists; reflexivity|reflexivity]. }
  assert (Is : forall n, live (sheap s2) n -> fs_is_member s2 (Some n) = Ok true -> member s2 n).
  { intros n L E. destruct (is_member_exact s2 n (history_sound _ _ H2) L) as (b & E' & Hb). apply Hb. congruence. }
  exists s2. split; [exact H2|].
  split; [apply Is; [eexists; reflexivity|reflexivity]|]. split; [apply Is; [eexists; reflexivity|reflexivity]|].
  split; [|split; reflexivity]. intros A. inversion A as [|? p ? P]; subst. discriminate.
Qed.

(** ** C62: merging *)

(** merge_frame_trees() unites two trees of the same root name.  A frame of the
    source whose path leads nowhere from the target comes to the target, at
    this path; the others stay with the source, and nothing else changes. *)
Theorem merge_frame_trees_unites {T} (h : heap (frame T)) target source x : grown h ->
  node_name h target = Ok x -> node_name h source = Ok x ->
  ~ above h target source -> ~ above h source target -> tidy h target -> tidy h source ->
  exists h', merge_frame_trees h target source = Ok h' /\ grown h' /\
    (forall xs m, at_path h' target xs m <->
      at_path h target xs m \/ (at_path h source xs m /\ forall k, ~ at_path h target xs k)) /\
    (forall xs m, at_path h' source xs m <->
      at_path h source xs m /\ exists k, at_path h target xs k) /\
    (forall m, data h' m = data h m) /\
    (forall m, ~ above h source m \/ m = source -> parent h' m = parent h m).
Proof.
  intros G Et Es N1 N2 Tt Ts.
  assert (Lv : forall n y, node_name h n = Ok y -> live h n).
  { intros n y E. unfold node_name in E. destruct (data h n) eqn:D; try discriminate. apply live_data. eauto. }
  destruct (merge_ok h target source x G (Lv _ _ Et) (Lv _ _ Es) (conj N1 N2) (tidy_det _ _ G Tt) (tidy_det _ _ G Ts) Et Es) as (h' & E & U).
  exists h'. split; [exact E|]. split; [exact (un_grown _ _ _ _ _ U)|]. split; [|split; [|split]].
  - intros xs m. rewrite (un_to _ _ _ _ _ U). tauto.
  - intros xs m. rewrite (un_from _ _ _ _ _ U). tauto.
  - exact (un_data _ _ _ _ _ U).
  - intros m H. apply (un_rest _ _ _ _ _ U). intros (A & B). tauto.
Qed.

(** merge_tree(tree) adds the frames of the tree whose paths are not in the
    store, at these paths, and deletes the others; the frames of the store stay
    where they are.  It returns whether there was a root of the same name. *)
Theorem merge_tree_unites {T} (st : store T) t x : sound st -> well_named st ->
  parent (sheap st) t = Ok None -> ~ member st t -> tidy (sheap st) t -> node_name (sheap st) t = Ok x ->
  exists st' b, fs_merge_tree st (Some t) None = Ok (st', b) /\ sound st' /\ well_named st' /\
    (b = true <-> exists r, In r (sroots st) /\ node_name (sheap st) r = Ok x) /\
    (forall xs m, placed st' xs m <->
      placed st xs m \/ (from_node (sheap st) t xs m /\ forall k, ~ placed st xs k)) /\
    (forall m, live (sheap st') m <-> live (sheap st) m /\
      ~ (exists xs k, from_node (sheap st) t xs m /\ placed st xs k)) /\
    (forall m, live (sheap st') m -> data (sheap st') m = data (sheap st) m) /\
    (forall m, live (sheap st') m -> ~ above (sheap st) t m -> parent (sheap st') m = parent (sheap st) m).
Proof. apply merge_none_ok. Qed.

(** A tree in the store is not merged. *)
Theorem merge_tree_refuses_members {T} (st : store T) t s : sound st -> member st t ->
  fs_merge_tree st (Some t) s = Throw LogicErr.
Proof.
  intros S M. unfold fs_merge_tree. destruct (is_member_ok st t S (member_live _ _ M)) as (b & -> & Hb). cbn [bind].
  rewrite (proj2 Hb M). reflexivity.
Qed.

(** merge_tree(tree, start) with a start frame does the opposite: nothing of the
    tree comes to the store, and the frames below the start frame whose paths
    are not in the tree are deleted. *)
Theorem merge_tree_at_start_refuted {T} (st : store T) t s x y : sound st -> well_named st ->
  parent (sheap st) t = Ok None -> ~ member st t -> tidy (sheap st) t -> node_name (sheap st) t = Ok x ->
  member st s -> node_name (sheap st) s = Ok y ->
  (x <> y /\ fs_merge_tree st (Some t) (Some s) = Throw LogicErr) \/
  (x = y /\ exists st', fs_merge_tree st (Some t) (Some s) = Ok (st', true) /\ sound st' /\ well_named st' /\
    sroots st' = sroots st /\
    (forall m, member st' m <-> member st m /\ forall xs, at_path (sheap st) s xs m -> exists k, at_path (sheap st) t xs k) /\
    (forall m, member st' m -> kept (sheap st) (sheap st') m) /\
    (forall m, above (sheap st) t m -> ~ live (sheap st') m)).
Proof. apply merge_start_ok. Qed.

(** ** The hypotheses are met *)

(** A store with the frames /a, /a/b, /a/b/c and /d, and beside it a tree a, a/b,
    a/b/e, a/f. *)
Definition made {A} (d : A) (r : res A) : A := match r with Ok a => a | _ => d end.
Definition s0 : store nat := Store [] [].
Definition plus (st : store nat) x p t : store nat := made st (r <- fs_add st x p t ;; Ok (fst r)).
Definition beside (st : store nat) x p t : store nat :=
  made st ('(h, _) <- new_node (sheap st) p (Frame x t) ;; Ok (Store h (sroots st))).

Definition s4 : store nat :=
  plus (plus (plus (plus s0 (lit "a") None 1) (lit "b") (Some 0) 2) (lit "c") (Some 1) 3) (lit "d") None 4.
Definition s8 : store nat :=
  beside (beside (beside (beside s4 (lit "a") None 5) (lit "b") (Some 4) 6) (lit "e") (Some 5) 7) (lit "f") (Some 4) 8.

Lemma plus_history st x p t : history true st -> live_opt (sheap st) p -> history true (plus st x p t).
Proof.
  intros H L. unfold plus. destruct (fs_add st x p t) as [(st', r)| |] eqn:E; cbn [bind made fst]; [|exact H|exact H].
  apply (history_call true st); [exact H|]. exact (call_add true st x p t st' r L E).
Qed.

Lemma beside_history st x p t : history true st -> live_opt (sheap st) p -> (forall q, p = Some q -> ~ member st q) ->
  history true (beside st x p t).
Proof.
  intros H L N. unfold beside. destruct (new_node (sheap st) p (Frame x t)) as [(h, n)| |] eqn:E; cbn [bind made]; [|exact H|exact H].
  apply (history_call true st); [exact H|]. exact (call_new true st p _ h n L N E).
Qed.

Lemma not_member st n : history true st -> live (sheap st) n -> fs_is_member (T := nat) st (Some n) = Ok false -> ~ member st n.
Proof.
  intros H L E M. destruct (is_member_exact st n (history_sound _ _ H) L) as (b & E' & Hb). rewrite E in E'. injection E' as <-.
  apply Hb in M. discriminate.
Qed.

Lemma s4_history : history true s4.
Proof. unfold s4. repeat (apply plus_history; [|solve [exact I | eexists; reflexivity]]). constructor. Qed.

Lemma s8_history : history true s8.
Proof.
  assert (A5 : history true (beside s4 (lit "a") None 5)) by (apply beside_history; [exact s4_history|exact I|discriminate]).
  assert (A6 : history true (beside (beside s4 (lit "a") None 5) (lit "b") (Some 4) 6)).
  { apply beside_history; [exact A5|eexists; vm_compute; reflexivity|]. intros q [= <-]. apply not_member; [exact A5|eexists; vm_compute; reflexivity|vm_compute; reflexivity]. }
  assert (A7 : history true (beside (beside (beside s4 (lit "a") None 5) (lit "b") (Some 4) 6) (lit "e") (Some 5) 7)).
  { apply beside_history; [exact A6|eexists; vm_compute; reflexivity|]. intros q [= <-]. apply not_member; [exact A6|eexists; vm_compute; reflexivity|vm_compute; reflexivity]. }
  apply beside_history; [exact A7|eexists; vm_compute; reflexivity|]. intros q [= <-]. apply not_member; [exact A7|eexists; vm_compute; reflexivity|vm_compute; reflexivity].
Qed.

Example frames_met :
  sound s8 /\ well_named s8 /\ member s8 2 /\ ~ member s8 4 /\ parent (sheap s8) 4 = Ok None /\
  fs_frame_names s8 = Ok [lit "/a"; lit "/a/b"; lit "/a/b/c"; lit "/d"] /\
  fs_lookup s8 (lit "/a/b/c") None = Ok (Some 2) /\ fs_lookup s8 (lit "c") None = Ok (Some 2) /\
  fs_lookup s8 (lit "../d") (Some 2) = Ok None /\ fs_lookup s8 (lit "..") (Some 2) = Ok (Some 1).
Proof.
  destruct (store_names_unique s8 s8_history) as (S & W). split; [exact S|]. split; [exact W|].
  split; [|split; [apply not_member; [exact s8_history|eexists; vm_compute; reflexivity|vm_compute; reflexivity]|]].
  - exists 0. split; [vm_compute; tauto|]. apply (above_parent _ 0 1 2); [vm_compute; reflexivity|]. apply (above_parent _ 0 0 1); [vm_compute; reflexivity|].
    constructor. eexists. vm_compute. reflexivity.
  - repeat (split; [vm_compute; reflexivity|]). vm_compute. reflexivity.
Qed.

Definition h8 : heap (frame nat) := Eval vm_compute in sheap s8.

Lemma s8_tidy : tidy (sheap s8) 4.
Proof.
  assert (E : sheap s8 = h8) by (vm_compute; reflexivity). rewrite E. clear E.
  assert (B : forall m, above h8 4 m -> In m [4; 5; 6; 7]).
  { intros m A. remember 4 as a eqn:Ha. induction A as [|a p m P A IH]; [left; reflexivity|]. specialize (IH Ha). subst a.
    do 8 (destruct m as [|m]; [vm_compute in P; try discriminate P; injection P as <-; cbn [In] in *; lia|]).
    vm_compute in P. destruct m; discriminate P. }
  split.
  - intros m A. apply B in A. cbn [In] in A. intuition (subst; discriminate).
  - intros a b A B'. apply B in A. apply B in B'. cbn [In] in A, B'. unfold apart.
    intuition (subst; first [left; reflexivity|right; left; discriminate|right; right; discriminate]).
Qed.

Example merging_met :
  exists st' b, fs_merge_tree s8 (Some 4) None = Ok (st', b) /\ b = true /\
    fs_frame_names st' = Ok [lit "/a"; lit "/a/f"; lit "/a/b"; lit "/a/b/e"; lit "/a/b/c"; lit "/d"] /\
    tidy (sheap s8) 4.
Proof. eexists _, _. split; [vm_compute; reflexivity|]. split; [reflexivity|]. split; [vm_compute; reflexivity|exact s8_tidy]. Qed.

Example merging_at_start_met :
  exists st', fs_merge_tree s8 (Some 4) (Some 0) = Ok (st', true) /\
    fs_frame_names st' = Ok [lit "/a"; lit "/a/b"; lit "/d"].
Proof. eexists. split; vm_compute; reflexivity. Qed.

Print Assumptions store_stays_sound.
Print Assumptions store_names_unique.
Print Assumptions is_member_exact.
Print Assumptions add_adds_frame.
Print Assumptions add_adds_tree.
Print Assumptions set_parent_moves_frame.
Print Assumptions del_deletes_tree.
Print Assumptions del_deletes_one.
Print Assumptions destructor_deletes_all.
Print Assumptions clone_tree_detached.
Print Assumptions queries_exact.
Print Assumptions null_handles_refused.
Print Assumptions children_of_null_refuted.
Print Assumptions names_stay_unique_refuted.
Print Assumptions add_failure_leaks_refuted.
Print Assumptions set_parent_takes_strangers_refuted.
Print Assumptions set_parent_loses_frames_refuted.
Print Assumptions full_name_from_root.
Print Assumptions frame_names_complete.
Print Assumptions split_path_elements.
Print Assumptions every_path_splits.
Print Assumptions lookup_full_name.
Print Assumptions lookup_follows_path.
Print Assumptions lookup_finds_member.
Print Assumptions lookup_finds_name.
Print Assumptions lookup_stays_below_scope_refuted.
Print Assumptions merge_frame_trees_unites.
Print Assumptions merge_tree_unites.
Print Assumptions merge_tree_refuses_members.
Print Assumptions merge_tree_at_start_refuted.
