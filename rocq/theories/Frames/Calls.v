(** Calls keep the store sound, and names unique. *)
From Coq Require Import List Arith Bool ZArith Lia Ascii String.
From Verif Require Import Lib.Base Lib.Lists Lib.Str Tree.Model Tree.Spec Tree.Proofs Tree.Trees Tree.Copy Tree.Props
  Frames.Model Frames.Spec Frames.Above Frames.Store Frames.Merge.
Import ListNotations.
Open Scope nat_scope.

Section Calls.
Context {T : Type}.
Implicit Types (h : heap (frame T)) (st : store T).

(** ** Places *)

Lemma placed_member st xs m : sound st -> placed st xs m -> member st m.
Proof.
  intros S (r & I & x & ys & _ & _ & A). exists r. split; [exact I|]. exact (at_path_above _ _ _ _ (sound_heap st S) A).
Qed.

Lemma member_placed st m : sound st -> member st m -> exists xs, placed st xs m.
Proof.
  intros S (r & I & A). destruct (above_at_path _ _ _ (sound_heap st S) A) as (ys & H).
  destruct (name_live _ _ (above_live_top _ _ _ A)) as (x & E). exists (x :: ys), r. split; [exact I|]. exists x, ys. auto.
Qed.

Lemma placed_app st xs m ys k : placed st xs m -> at_path (sheap st) m ys k -> placed st (xs ++ ys) k.
Proof.
  intros (r & I & x & zs & -> & E & A) B. exists r. split; [exact I|]. exists x, (zs ++ ys).
  split; [reflexivity|]. split; [exact E|]. exact (at_path_app _ _ _ _ A _ _ B).
Qed.

Definition one_place st : Prop := forall xs a b, placed st xs a -> placed st xs b -> a = b.

Lemma named_tidy st r : sound st -> well_named st -> member st r -> tidy (sheap st) r.
Proof.
  intros S (W1 & W2) M. split.
  - intros m A. apply W1. exact (member_down st r m M A).
  - intros a b A B. apply W2; eapply member_down; eassumption.
Qed.

Lemma named_place st : sound st -> well_named st -> one_place st.
Proof.
  intros S W xs a b (r & I & x & ys & -> & E & A) (r' & I' & x' & ys' & [= <- <-] & E' & B).
  assert (r = r').
  { destruct (proj2 W r r' (root_member st r S I) (root_member st r' S I')) as [H|[H|H]]; [exact H| |congruence].
    rewrite (sound_roots st S r I), (sound_roots st S r' I') in H. congruence. }
  subst r'. apply (tidy_det _ r (sound_heap st S) (named_tidy st r S W (root_member st r S I)) ys); assumption.
Qed.

Lemma place_named st : sound st -> one_place st -> (forall m, member st m -> node_name (sheap st) m <> Ok []) -> well_named st.
Proof.
  intros S P Ne. split; [exact Ne|]. intros a b Ma Mb. pose proof (sound_heap st S) as G.
  destruct (Nat.eq_dec a b) as [->|H]; [left; reflexivity|right].
  assert (La := member_live _ _ Ma). assert (Lb := member_live _ _ Mb).
  destruct (name_live _ _ La) as (x & Ex). destruct (name_live _ _ Lb) as (y & Ey).
  apply live_parent in La as (p & Pa). apply live_parent in Lb as (q & Pb). rewrite Pa, Pb, Ex, Ey.
  destruct (str_eqb x y) eqn:Q; [apply str_eqb_spec in Q as <-|apply str_eqb_false in Q; right; congruence].
  left. intros [= <-]. apply H. destruct p as [p|].
  - assert (Mp : member st p) by exact (member_up st p a S Ma (above_up _ _ _ G Pa)).
    destruct (member_placed st p S Mp) as (xs & Hp).
    apply (P (xs ++ [x])); apply (placed_app st xs p _ _ Hp).
    + apply (at_cons _ p a); [exact Pa|exact Ex|constructor; exact (member_live _ _ Ma)].
    + apply (at_cons _ p b); [exact Pb|exact Ey|constructor; exact (member_live _ _ Mb)].
  - apply (P [x]).
    + exists a. split; [exact (member_root st a Ma Pa)|]. exists x, []. split; [reflexivity|]. split; [exact Ex|constructor; exact (member_live _ _ Ma)].
    + exists b. split; [exact (member_root st b Mb Pb)|]. exists x, []. split; [reflexivity|]. split; [exact Ey|constructor; exact (member_live _ _ Mb)].
Qed.

Lemma well_named_sub st st' : well_named st -> (forall m, member st' m -> member st m /\ kept (sheap st) (sheap st') m) -> well_named st'.
Proof.
  intros (W1 & W2) A. split.
  - intros m M. apply A in M as (M & _ & D). rewrite (name_data _ _ _ D). auto.
  - intros a b Ma Mb. apply A in Ma as (Ma & Ka). apply A in Mb as (Mb & Kb). apply (apart_kept (sheap st)); auto.
Qed.

(** ** New nodes, clones, transforms *)

Lemma children_down st h' : sound st -> grown h' ->
  (forall q cs, member st q -> children (sheap st) q = Ok cs -> children h' q = Ok cs) ->
  forall m p, member st p -> parent h' m = Ok (Some p) -> parent (sheap st) m = Ok (Some p).
Proof.
  intros S G' C m p M P. destruct (links (sheap st) p (sound_heap st S) (member_live _ _ M)) as (cs & E & _ & H).
  destruct (links h' p G' (parent_live_up h' m p G' P)) as (cs' & E' & _ & H').
  rewrite (C p cs M E) in E'. injection E' as <-. apply H, H', P.
Qed.

Lemma new_sound st p d : sound st -> live_opt (sheap st) p -> (forall q, p = Some q -> ~ member st q) ->
  exists h' n, new_node (sheap st) p d = Ok (h', n) /\ ~ live (sheap st) n /\ live h' n /\
    sound (Store h' (sroots st)) /\ (forall m, member (Store h' (sroots st)) m <-> member st m) /\
    parent h' n = Ok p /\ data h' n = Ok d /\ children h' n = Ok [] /\
    (forall m, m <> n -> kept (sheap st) h' m).
Proof.
  intros S L N. destruct (grown_new (sheap st) p d (sound_heap st S) L) as (h' & E & G' & Nl & P & D & C & K & Ch).
  exists h', (List.length (sheap st)). split; [exact E|]. split; [exact Nl|]. split; [exact (parent_live _ _ _ P)|].
  assert (X : sound (Store h' (sroots st)) /\ forall m, member (Store h' (sroots st)) m <-> member st m).
  { apply members_same; [exact S|exact G'| |].
    - intros m M. apply K. intros ->. exact (Nl (member_live _ _ M)).
    - apply children_down; [exact S|exact G'|]. intros q cs M Eq. rewrite (Ch q cs Eq).
      destruct p as [p|]; cbn [is]; [|reflexivity]. destruct (Nat.eqb_spec p q) as [->|_]; [|reflexivity].
      exfalso. exact (N q eq_refl M). }
  destruct X as (X1 & X2). split; [exact X1|]. split; [exact X2|]. split; [exact P|]. split; [exact D|]. split; [exact C|]. exact K.
Qed.

Lemma clone_sound st n : sound st -> live (sheap st) n ->
  exists h' m, fs_clone_tree st (Some n) = Ok (Store h' (sroots st), m) /\ clone (sheap st) n None = Ok (h', m) /\
    sound (Store h' (sroots st)) /\ (forall k, member (Store h' (sroots st)) k <-> member st k) /\
    (forall k, live (sheap st) k -> kept (sheap st) h' k).
Proof.
  intros S L. pose proof (sound_heap st S) as G.
  destruct (tree_exists (sheap st) n G L) as (t & Ht).
  assert (Pd : exists d, payload (sheap st) t d).
  { assert (A : forall k, In k (ids t) -> live (sheap st) k).
    { intros k I. exact (above_live _ _ _ (proj1 (tree_above _ _ _ (grown_good _ G) (grown_path _ G n L) Ht k) I)). }
    clear Ht. revert A. induction t as [k ts IH] using tree_ind'. intros A.
    destruct (A k (or_introl eq_refl)) as (nd & En).
    assert (X : exists ds, payloads (sheap st) ts ds).
    { assert (A' : forall t, In t ts -> forall j, In j (ids t) -> live (sheap st) j).
      { intros t It j Ij. apply A. right. apply in_flat_map. eauto. }
      clear - IH A'. induction IH as [|t ts H _ IH]; [exists []; constructor|].
      destruct H as (d & Hd); [apply A'; left; reflexivity|].
      destruct IH as (ds & Hds); [intros t' It; apply A'; right; exact It|]. exists (d :: ds). constructor; assumption. }
    destruct X as (ds & Hds). eexists. econstructor; eassumption. }
  destruct Pd as (d & Pd).
  destruct (clone_copies (sheap st) n None t d G Ht Pd I) as (h' & m & t' & E & G' & _ & _ & _ & _ & K & Ch); [discriminate|].
  exists h', m. unfold fs_clone_tree. cbn [not_null bind]. rewrite E. cbn [bind]. split; [reflexivity|]. split; [reflexivity|].
  assert (X : sound (Store h' (sroots st)) /\ forall k, member (Store h' (sroots st)) k <-> member st k).
  { apply members_same; [exact S|exact G'| |].
    - intros k M. apply K. exact (member_live _ _ M).
    - apply children_down; [exact S|exact G'|]. intros q cs _ Eq. exact (Ch q cs Eq). }
  destruct X as (X1 & X2). split; [exact X1|]. split; [exact X2|].
  intros k Lk. destruct (K k Lk) as (P & Y). split; [exact P|]. exact (same_payload_data _ _ _ Y).
Qed.

Lemma write_ok h n t d : grown h -> data h n = Ok d ->
  exists h', write_transform h n t = Ok h' /\ grown h' /\ data h' n = Ok (Frame (fname d) t) /\
    (forall m, m <> n -> data h' m = data h m) /\ (forall m, parent h' m = parent h m) /\ (forall m, children h' m = children h m).
Proof.
  intros G E. assert (L : live h n) by (apply live_data; eauto).
  destruct (grown_write h n (Frame (fname d) t) G L) as (h' & E' & X). exists h'. split; [|exact X].
  unfold write_transform. rewrite E. cbn [bind]. exact E'.
Qed.

Lemma write_sound st n t d : sound st -> data (sheap st) n = Ok d ->
  exists h', write_transform (sheap st) n t = Ok h' /\ sound (Store h' (sroots st)) /\
    (forall m, member (Store h' (sroots st)) m <-> member st m) /\
    data h' n = Ok (Frame (fname d) t) /\
    (forall m, m <> n -> data h' m = data (sheap st) m) /\ (forall m, parent h' m = parent (sheap st) m) /\
    (forall m, node_name h' m = node_name (sheap st) m).
Proof.
  intros S E. destruct (write_ok (sheap st) n t d (sound_heap st S) E) as (h' & E' & G' & D & Dm & P & C).
  exists h'. split; [exact E'|].
  destruct (members_same st h' S G') as (X1 & X2); [intros; apply P|intros m p _ H; rewrite <- P; exact H|].
  split; [exact X1|]. split; [exact X2|]. split; [exact D|]. split; [exact Dm|]. split; [exact P|].
  intros m. destruct (Nat.eq_dec m n) as [->|H]; [|apply name_data, Dm, H].
  unfold node_name. rewrite D, E. reflexivity.
Qed.

(** ** Merging *)

Lemma merge_root_ok h x roots : (forall r, In r roots -> live h r) ->
  exists o, merge_root h roots x = Ok o /\
    match o with
    | Some r => In r roots /\ node_name h r = Ok x
    | None => forall r, In r roots -> node_name h r <> Ok x
    end.
Proof.
  induction roots as [|r roots IH]; intros A; cbn [merge_root].
  - exists None. split; [reflexivity|]. intros r [].
  - destruct (name_live h r (A r (or_introl eq_refl))) as (y & E). rewrite E. cbn [bind].
    destruct (str_eqb y x) eqn:Q.
    + apply str_eqb_spec in Q as ->. exists (Some r). split; [reflexivity|]. split; [left; reflexivity|exact E].
    + apply str_eqb_false in Q. destruct IH as (o & Eo & Ho); [intros; apply A; right; assumption|].
      exists o. split; [exact Eo|]. destruct o as [s|]; [split; [right|]; tauto|].
      intros s [<-|I]; [congruence|auto].
Qed.

Lemma foreign_root st t s : sound st -> parent (sheap st) t = Ok None -> ~ member st t -> member st s -> incomparable (sheap st) s t.
Proof.
  intros S P N M. split; intros A.
  - apply N. exact (member_down st s t M A).
  - exact (outside_above st t s S M N A).
Qed.

(** After [d] took over from [c], and what is left of a parentless [c] or of
    [d] is deleted. *)
Lemma delete_left h1 t : grown h1 -> parent h1 t = Ok None ->
  exists h2, recursive_delete h1 t = Ok h2 /\ grown h2 /\
    (forall m, live h2 m <-> live h1 m /\ ~ above h1 t m) /\
    (forall m, live h2 m -> kept h1 h2 m) /\
    (forall a m, live h2 m -> (above h2 a m <-> above h1 a m)) /\
    (forall z xs m, live h2 z -> (at_path h2 z xs m <-> at_path h1 z xs m)).
Proof.
  intros G1 P. destruct (grown_delete h1 t G1 (parent_live _ _ _ P)) as (h2 & E & G2 & Lv & K & _).
  exists h2. split; [exact E|]. split; [exact G2|]. split; [exact Lv|]. split; [exact K|].
  assert (Ab : forall a m, live h2 m -> (above h2 a m <-> above h1 a m)).
  { intros a m Lm. destruct (proj1 (Lv m) Lm) as (L1 & N1). apply above_same; [exact G1|exact L1|].
    intros x A. apply K, Lv. split; [exact (above_live_top _ _ _ A)|]. intros B. apply N1. exact (above_trans _ _ _ _ B A). }
  split; [exact Ab|].
  assert (Dn : forall z y, live h2 z -> parent h1 y = Ok (Some z) -> live h2 y).
  { intros z y Lz Py. apply Lv. split; [exact (parent_live _ _ _ Py)|]. intros A.
    apply above_cases in A as [->|(q & Q & A)]; [congruence|]. assert (q = z) by congruence. subst q.
    apply Lv in Lz. tauto. }
  intros z xs. revert z. induction xs as [|x xs IH]; intros z m Lz.
  - split; intros H; inversion H; subst; constructor; [apply Lv in Lz; tauto|exact Lz].
  - split; intros H; inversion H as [|? y ? ? ? Py Ey H']; subst.
    + assert (Ly := parent_live _ _ _ Py). destruct (K y Ly) as (K1 & K2).
      rewrite K1 in Py. rewrite (name_data _ _ _ K2) in Ey.
      econstructor; [exact Py|exact Ey|]. apply IH; assumption.
    + assert (Ly := Dn z y Lz Py). destruct (K y Ly) as (K1 & K2).
      econstructor; [rewrite K1; exact Py|rewrite (name_data _ _ _ K2); exact Ey|]. apply IH; assumption.
Qed.

Lemma not_strict_root h c r : grown h -> parent h r = Ok None -> ~ strictly h c r.
Proof. intros G P (A & H). apply H. symmetry. exact (above_root_eq _ _ _ A P). Qed.

Lemma merge_none_ok st t x : sound st -> well_named st -> parent (sheap st) t = Ok None -> ~ member st t ->
  tidy (sheap st) t -> node_name (sheap st) t = Ok x ->
  exists st' b, fs_merge_tree st (Some t) None = Ok (st', b) /\ sound st' /\ well_named st' /\
    (b = true <-> exists r, In r (sroots st) /\ node_name (sheap st) r = Ok x) /\
    (forall xs m, placed st' xs m <->
      placed st xs m \/ (from_node (sheap st) t xs m /\ forall k, ~ placed st xs k)) /\
    (forall m, live (sheap st') m <-> live (sheap st) m /\
      ~ (exists xs k, from_node (sheap st) t xs m /\ placed st xs k)) /\
    (forall m, live (sheap st') m -> data (sheap st') m = data (sheap st) m) /\
    (forall m, live (sheap st') m -> ~ above (sheap st) t m -> parent (sheap st') m = parent (sheap st) m).
Proof.
  intros S W Pt Nt Td Ex. pose proof (sound_heap st S) as G. assert (Lt := parent_live _ _ _ Pt).
  unfold fs_merge_tree. destruct (is_member_ok st t S Lt) as (b & -> & Hb). cbn [bind]. destruct b; [exfalso; apply Nt, Hb; reflexivity|].
  clear Hb. rewrite Ex. cbn [bind].
  destruct (merge_root_ok (sheap st) x (sroots st)) as (o & -> & Ho); [intros r I; exact (member_live _ _ (root_member st r S I))|].
  cbn [bind]. destruct o as [r|].
  - destruct Ho as (Ir & Er). pose proof (root_member st r S Ir) as Mr.
    assert (Inc := foreign_root st t r S Pt Nt Mr).
    assert (Dr : det (sheap st) r) by exact (tidy_det _ _ G (named_tidy st r S W Mr)).
    assert (Dt : det (sheap st) t) by exact (tidy_det _ _ G Td).
    destruct (merge_ok (sheap st) r t x G (member_live _ _ Mr) Lt Inc Dr Dt Er Ex) as (h1 & -> & U). cbn [bind].
    assert (G1 := un_grown _ _ _ _ _ U).
    assert (Root1 : forall s, parent (sheap st) s = Ok None -> parent h1 s = Ok None).
    { intros s Ps. rewrite (un_rest _ _ _ _ _ U); [exact Ps|]. exact (not_strict_root _ _ _ G Ps). }
    destruct (delete_left h1 t G1 (Root1 t Pt)) as (h2 & -> & G2 & Lv & K & Ab & At). cbn [bind].
    eexists _, true. split; [reflexivity|].
    assert (Rl : forall s, In s (sroots st) -> live h2 s).
    { intros s I. apply Lv. pose proof (Root1 s (sound_roots st S s I)) as Ps. split; [exact (parent_live _ _ _ Ps)|].
      intros A. apply Nt. rewrite (above_root_eq _ _ _ A Ps). exact (root_member st s S I). }
    assert (S2 : sound (Store h2 (sroots st))).
    { constructor; cbn [sheap sroots]; [exact G2|exact (sound_nodup st S)|].
      intros s I. rewrite (proj1 (K s (Rl s I))). exact (Root1 s (sound_roots st S s I)). }
    assert (Dat : forall m, live h2 m -> data h2 m = data (sheap st) m).
    { intros m L. rewrite (proj2 (K m L)). exact (un_data _ _ _ _ _ U m). }
    assert (Nr : forall xs m, from_node (sheap st) t xs m -> forall k, placed st xs k -> from_node (sheap st) r xs k).
    { intros xs m (y & ys & -> & Ey & _) k (s & Is & y' & ys' & [= <- <-] & Es & As).
      assert (s = r).
      { destruct (proj2 W s r (root_member st s S Is) Mr) as [H|[H|H]]; [exact H| |congruence].
        rewrite (sound_roots st S s Is), (sound_roots st S r Ir) in H. congruence. }
      subst s. exists y, ys. auto. }
    assert (Pl : forall xs m, placed (Store h2 (sroots st)) xs m <->
              placed st xs m \/ (from_node (sheap st) t xs m /\ forall k, ~ placed st xs k)).
    { intros xs m. split.
      - intros (s & I & y & ys & -> & Ey & A). cbn [sheap sroots] in *.
        assert (Ls := Rl s I). rewrite (name_data _ _ _ (Dat s Ls)) in Ey. apply At in A; [|exact Ls].
        destruct (Nat.eq_dec s r) as [->|Hs].
        + apply (un_to _ _ _ _ _ U) in A as [A|(_ & A & N)].
          * left. exists r. split; [exact I|]. exists y, ys. auto.
          * right. assert (y = x) by congruence. subst y.
            assert (Fn : from_node (sheap st) t (x :: ys) m) by (exists x, ys; auto). split; [exact Fn|].
            intros k Hk. destruct (Nr _ _ Fn k Hk) as (y & zs & [= <- <-] & _ & Ak). exact (N k Ak).
        + left. exists s. split; [exact I|]. exists y, ys. split; [reflexivity|]. split; [exact Ey|].
          apply (united_apart _ _ _ _ _ U G); [exact (member_live _ _ (root_member st s S I))| |apply foreign_root; auto; exact (root_member st s S I)|exact A].
          split; intros B; apply Hs.
          * exact (above_root_eq _ _ _ B (sound_roots st S r Ir)).
          * symmetry. exact (above_root_eq _ _ _ B (sound_roots st S s I)).
      - intros [(s & I & y & ys & -> & Ey & A)|((y & ys & -> & Ey & A) & N)].
        + assert (Ls := Rl s I). exists s. cbn [sheap sroots]. split; [exact I|]. exists y, ys. split; [reflexivity|].
          split; [rewrite (name_data _ _ _ (Dat s Ls)); exact Ey|]. apply At; [exact Ls|].
          destruct (Nat.eq_dec s r) as [->|Hs]; [apply (un_to _ _ _ _ _ U); left; exact A|].
          apply (united_apart _ _ _ _ _ U G); [exact (member_live _ _ (root_member st s S I))| |apply foreign_root; auto; exact (root_member st s S I)|exact A].
          split; intros B; apply Hs.
          * exact (above_root_eq _ _ _ B (sound_roots st S r Ir)).
          * symmetry. exact (above_root_eq _ _ _ B (sound_roots st S s I)).
        + assert (y = x) by congruence. subst y. assert (Ls := Rl r Ir).
          exists r. cbn [sheap sroots]. split; [exact Ir|]. exists x, ys. split; [reflexivity|].
          split; [rewrite (name_data _ _ _ (Dat r Ls)); exact Er|]. apply At; [exact Ls|].
          apply (un_to _ _ _ _ _ U). right. split; [exact I|]. split; [exact A|].
          intros k Hk. apply (N k). exists r. split; [exact Ir|]. exists x, ys. auto. }
    split; [exact S2|].
    assert (W2 : well_named (Store h2 (sroots st))).
    { apply place_named; [exact S2| |].
      - intros xs a b A B. apply Pl in A. apply Pl in B.
        destruct A as [A|(A & Na)], B as [B|(B & Nb)].
        + exact (named_place st S W xs a b A B).
        + exfalso. exact (Nb a A).
        + exfalso. exact (Na b B).
        + destruct A as (y & ys & -> & _ & A). destruct B as (y' & ys' & [= <- <-] & _ & B). exact (Dt ys a b A B).
      - intros m M. assert (Lm := member_live _ _ M). cbn [sheap] in *. rewrite (name_data _ _ _ (Dat m Lm)).
        destruct (member_placed _ m S2 M) as (xs & H). apply Pl in H as [H|((y & ys & _ & _ & A) & _)].
        + apply (proj1 W). exact (placed_member st xs m S H).
        + apply (proj1 Td). exact (at_path_above _ _ _ _ G A). }
    split; [exact W2|]. split; [split; [intros _; exists r; auto|reflexivity]|]. split; [exact Pl|]. cbn [sheap].
    split; [|split; [exact Dat|]].
    + intros m. rewrite Lv, (united_live _ _ _ _ _ m U).
      assert (X : above h1 t m <-> exists xs k, from_node (sheap st) t xs m /\ placed st xs k).
      { split.
        - intros A. apply (above_at_path _ _ _ G1) in A as (ys & A). apply (un_from _ _ _ _ _ U) in A as (A & Kk).
          destruct (Kk I) as (k & Ak). exists (x :: ys), k. split; [exists x, ys; auto|]. exists r. split; [exact Ir|]. exists x, ys. auto.
        - intros (xs & k & Fn & Pk). destruct (Nr xs m Fn k Pk) as (y & ys & -> & _ & Ak).
          destruct Fn as (y' & ys' & [= <- <-] & _ & A). apply (at_path_above _ _ ys _ G1).
          apply (un_from _ _ _ _ _ U). split; [exact A|]. intros _. exists k. exact Ak. }
      rewrite X. tauto.
    + intros m L N. rewrite (proj1 (K m L)). apply (un_rest _ _ _ _ _ U). intros (A & _). exact (N A).
  - (* no root with this name *)
    eexists _, false. split; [reflexivity|].
    assert (NPl : forall xs m, from_node (sheap st) t xs m -> forall k, ~ placed st xs k).
    { intros xs m (y & ys & -> & Ey & _) k (s & I & y' & ys' & [= <- <-] & Es & _). apply (Ho s I). congruence. }
    assert (S' : sound (Store (sheap st) (sroots st ++ [t]))).
    { constructor; cbn [sheap sroots]; [exact G| |].
      - apply NoDup_app_intro; [exact (sound_nodup st S)|repeat constructor; auto|].
        intros y I [<-|[]]. apply Nt. exact (root_member st t S I).
      - intros s I. apply in_app_iff in I as [I|[<-|[]]]; [exact (sound_roots st S s I)|exact Pt]. }
    assert (Pl : forall xs m, placed (Store (sheap st) (sroots st ++ [t])) xs m <->
              placed st xs m \/ (from_node (sheap st) t xs m /\ forall k, ~ placed st xs k)).
    { intros xs m. split.
      - intros (s & I & Fn). cbn [sheap sroots] in *. apply in_app_iff in I as [I|[<-|[]]]; [left; exists s; auto|].
        right. split; [exact Fn|]. exact (NPl xs m Fn).
      - intros [(s & I & Fn)|(Fn & _)]; [exists s|exists t]; cbn [sheap sroots]; rewrite in_app_iff; cbn [In]; auto. }
    split; [exact S'|]. split.
    { apply place_named; [exact S'| |].
      - intros xs a b A B. apply Pl in A. apply Pl in B.
        destruct A as [A|(A & Na)], B as [B|(B & Nb)].
        + exact (named_place st S W xs a b A B).
        + exfalso. exact (Nb a A).
        + exfalso. exact (Na b B).
        + destruct A as (y & ys & -> & _ & A). destruct B as (y' & ys' & [= <- <-] & _ & B). exact (tidy_det _ _ G Td ys a b A B).
      - intros m M. cbn [sheap] in *.
        destruct (member_placed _ m S' M) as (xs & H). apply Pl in H as [H|((y & ys & _ & _ & A) & _)].
        + apply (proj1 W). exact (placed_member st xs m S H).
        + apply (proj1 Td). exact (at_path_above _ _ _ _ G A). }
    split; [split; [discriminate|intros (r & I & E); exfalso; exact (Ho r I E)]|]. split; [exact Pl|]. cbn [sheap].
    split; [|split; auto]. intros m. split; [|tauto]. intros L. split; [exact L|]. intros (xs & k & Fn & Pk). exact (NPl xs m Fn k Pk).
Qed.

(** With a start frame the store's frames go to the tree, which is deleted. *)
Lemma merge_start_ok st t s x y : sound st -> well_named st -> parent (sheap st) t = Ok None -> ~ member st t ->
  tidy (sheap st) t -> node_name (sheap st) t = Ok x -> member st s -> node_name (sheap st) s = Ok y ->
  (x <> y /\ fs_merge_tree st (Some t) (Some s) = Throw LogicErr) \/
  (x = y /\ exists st', fs_merge_tree st (Some t) (Some s) = Ok (st', true) /\ sound st' /\ well_named st' /\
    sroots st' = sroots st /\
    (forall m, member st' m <-> member st m /\ forall xs, at_path (sheap st) s xs m -> exists k, at_path (sheap st) t xs k) /\
    (forall m, member st' m -> kept (sheap st) (sheap st') m) /\
    (forall m, above (sheap st) t m -> ~ live (sheap st') m)).
Proof.
  intros S W Pt Nt Td Ex Ms Ey. pose proof (sound_heap st S) as G. assert (Lt := parent_live _ _ _ Pt).
  unfold fs_merge_tree. destruct (is_member_ok st t S Lt) as (b & -> & Hb). cbn [bind]. destruct b; [exfalso; apply Nt, Hb; reflexivity|].
  clear Hb. rewrite Ex. cbn [bind]. rewrite Ey. cbn [bind].
  destruct (str_eqb x y) eqn:Q; cbn [negb]; [apply str_eqb_spec in Q as <-|left; split; [apply str_eqb_false; exact Q|reflexivity]].
  right. split; [reflexivity|].
  assert (Inc := incomparable_sym _ _ _ (foreign_root st t s S Pt Nt Ms)).
  assert (Ds : det (sheap st) s) by exact (tidy_det _ _ G (named_tidy st s S W Ms)).
  assert (Dt : det (sheap st) t) by exact (tidy_det _ _ G Td).
  assert (Ls := member_live _ _ Ms).
  destruct (merge_ok (sheap st) t s x G Lt Ls Inc Dt Ds Ex Ey) as (h1 & -> & U). cbn [bind].
  assert (G1 := un_grown _ _ _ _ _ U).
  assert (Root1 : forall r, parent (sheap st) r = Ok None -> parent h1 r = Ok None).
  { intros r Pr. rewrite (un_rest _ _ _ _ _ U); [exact Pr|]. exact (not_strict_root _ _ _ G Pr). }
  destruct (delete_left h1 t G1 (Root1 t Pt)) as (h2 & -> & G2 & Lv & K & Ab & At). cbn [bind].
  eexists. split; [reflexivity|].
  assert (Rl : forall r, In r (sroots st) -> live h2 r).
  { intros r I. apply Lv. pose proof (Root1 r (sound_roots st S r I)) as Pr. split; [exact (parent_live _ _ _ Pr)|].
    intros A. apply Nt. rewrite (above_root_eq _ _ _ A Pr). exact (root_member st r S I). }
  assert (S2 : sound (Store h2 (sroots st))).
  { constructor; cbn [sheap sroots]; [exact G2|exact (sound_nodup st S)|].
    intros r I. rewrite (proj1 (K r (Rl r I))). exact (Root1 r (sound_roots st S r I)). }
  (* a frame below [s] whose path leads nowhere from [t] is deleted, all other
     frames keep their ancestors *)
  assert (Lost : forall xs m, at_path (sheap st) s xs m -> (forall k, ~ at_path (sheap st) t xs k) -> above h1 t m).
  { intros xs m A N. apply (at_path_above _ _ xs _ G1). apply (un_to _ _ _ _ _ U). auto. }
  assert (Stay : forall m, above (sheap st) s m -> (forall xs, at_path (sheap st) s xs m -> exists k, at_path (sheap st) t xs k) ->
            above h1 s m).
  { intros m A H. apply (above_at_path _ _ _ G) in A as (xs & A). apply (at_path_above _ _ xs _ G1).
    apply (un_from _ _ _ _ _ U). split; [exact A|]. intros _. exact (H xs A). }
  assert (Up : forall n, live (sheap st) n -> ~ strictly (sheap st) s n -> forall a, above h1 a n <-> above (sheap st) a n)
    by (intros n L N; exact (united_up _ _ _ _ _ n U G L N)).
  assert (Inc1 := united_incomparable _ _ _ _ _ U G Lt Ls Inc).
  assert (Mem : forall m, member (Store h2 (sroots st)) m <->
            member st m /\ forall xs, at_path (sheap st) s xs m -> exists k, at_path (sheap st) t xs k).
  { intros m. split.
    - intros (r & I & A). cbn [sheap sroots] in *. assert (L2 := above_live _ _ _ A). apply Ab in A; [|exact L2].
      apply Lv in L2 as (L1 & N1). assert (L : live (sheap st) m) by (apply (united_live _ _ _ _ _ _ U); exact L1).
      destruct (above_dec (sheap st) s m G L) as [B|B].
      + split; [exact (member_down st s m Ms B)|]. intros xs Hx.
        destruct (united_det _ _ _ _ _ U Dt Ds) as (Dt1 & _).
        (* otherwise it would be below [t] *)
        assert (X : (exists k, at_path (sheap st) t xs k) \/ forall k, ~ at_path (sheap st) t xs k).
        { clear - Lt G Dt. revert Lt Dt. generalize t. induction xs as [|z xs IH]; intros n Ln Dn.
          - left. exists n. constructor. exact Ln.
          - destruct (links (sheap st) n G Ln) as (cs & _ & _ & Hc).
            destruct (named_ok (sheap st) z cs) as (o & _ & Ho); [intros c I; apply Hc in I; exact (parent_live _ _ _ I)|].
            destruct o as [c|].
            + destruct Ho as (Ic & Ec). apply Hc in Ic. destruct (IH c (parent_live _ _ _ Ic) (det_child _ _ _ Dn Ic)) as [(k & Hk)|N].
              * left. exists k. econstructor; eassumption.
              * right. intros k Hk. inversion Hk as [|? w ? ? ? Pw Ew Hw]; subst.
                rewrite (det_one _ _ w c z Dn Pw Ic Ew Ec) in Hw. exact (N k Hw).
            + right. intros k Hk. inversion Hk as [|? w ? ? ? Pw Ew Hw]; subst. apply (Ho w); [apply Hc; exact Pw|exact Ew]. }
        destruct X as [X|X]; [exact X|]. exfalso. apply N1. exact (Lost xs m Hx X).
      + split.
        * exists r. split; [exact I|]. apply Up; auto. intros (B' & _). exact (B B').
        * intros xs Hx. exfalso. apply B. exact (at_path_above _ _ _ _ G Hx).
    - intros (M & H). assert (L := member_live _ _ M).
      assert (N1 : ~ above h1 t m).
      { intros A. destruct (above_dec (sheap st) s m G L) as [B|B].
        - pose proof (Stay m B H) as B1. destruct (above_chain _ _ _ _ A B1); [exact (proj1 Inc1 H0)|exact (proj2 Inc1 H0)].
        - apply Up in A; [|exact L|intros (B' & _); exact (B B')]. exact (outside_above st t m S M Nt A). }
      assert (L2 : live h2 m) by (apply Lv; split; [apply (united_live _ _ _ _ _ _ U); exact L|exact N1]).
      destruct M as (r & I & A). exists r. cbn [sheap sroots]. split; [exact I|]. apply Ab; [exact L2|].
      destruct (above_dec (sheap st) s m G L) as [B|B].
      + apply (above_trans _ r s m); [|exact (Stay m B H)]. apply Up; [exact Ls|intros (_ & X); apply X; reflexivity|].
        destruct Ms as (r' & I' & A'). pose proof (above_trans _ _ _ _ A' B) as A2.
        rewrite (above_roots_eq (sheap st) r r' m (sound_roots st S r I) (sound_roots st S r' I') A A2). exact A'.
      + apply Up; auto. intros (B' & _). exact (B B'). }
  assert (Kp : forall m, member (Store h2 (sroots st)) m -> kept (sheap st) h2 m).
  { intros m M2. assert (L2 := member_live _ _ M2). cbn [sheap] in L2. destruct (K m L2) as (K1 & K2).
    pose proof (proj1 (Mem m) M2) as (M & _).
    split; [rewrite K1|rewrite K2; exact (un_data _ _ _ _ _ U m)].
    destruct (above_dec (sheap st) s m G (member_live _ _ M)) as [B|B]; [|apply (un_rest _ _ _ _ _ U); intros (B' & _); exact (B B')].
    destruct (Nat.eq_dec m s) as [->|Hm]; [apply (un_rest _ _ _ _ _ U); intros (_ & X); apply X; reflexivity|].
    destruct (un_move _ _ _ _ _ U m (conj B Hm)) as [E|(q & E & A)]; [exact E|].
    exfalso. apply Lv in L2 as (_ & N1). apply N1. exact (above_trans _ _ _ _ A (above_up _ _ _ G1 E)). }
  split; [exact S2|]. split; [apply (well_named_sub st); [exact W|]; intros m M; split; [apply Mem in M; tauto|exact (Kp m M)]|].
  split; [reflexivity|]. split; [exact Mem|]. split; [exact Kp|]. cbn [sheap].
  intros m A L2. apply Lv in L2 as (_ & N1). apply N1.
  apply (above_at_path _ _ _ G) in A as (xs & A). apply (at_path_above _ _ xs _ G1). apply (un_to _ _ _ _ _ U). left. exact A.
Qed.

(** ** Adding by name *)

Lemma add_ok st x p t : sound st -> live_opt (sheap st) p ->
  exists h n, new_node (sheap st) None (Frame x t) = Ok (h, n) /\ ~ live (sheap st) n /\ sound (Store h (sroots st)) /\
    (forall m, member (Store h (sroots st)) m <-> member st m) /\ (forall m, m <> n -> kept (sheap st) h m) /\
    parent h n = Ok None /\ data h n = Ok (Frame x t) /\
    (((x = [] \/ ~ member_opt st p \/ taken st x p) /\ fs_add st x p t = Ok (Store h (sroots st), Throw LogicErr)) \/
     (x <> [] /\ member_opt st p /\ ~ taken st x p /\ exists st', fs_add st x p t = Ok (st', Ok n) /\
        fs_add_node (Store h (sroots st)) (Some n) p = Ok st')).
Proof.
  intros S Lp. destruct (new_sound st None (Frame x t) S I) as (h & n & E & Nl & Ln & S1 & Mem & P & D & C & K); [discriminate|].
  exists h, n. split; [exact E|]. split; [exact Nl|]. split; [exact S1|]. split; [exact Mem|]. split; [exact K|].
  split; [exact P|]. split; [exact D|].
  unfold fs_add. rewrite E. cbn [bind].
  assert (Nm : ~ member st n) by (intros M; exact (Nl (member_live _ _ M))).
  assert (Ex : node_name h n = Ok x) by (unfold node_name; rewrite D; reflexivity).
  assert (Mo : member_opt (Store h (sroots st)) p <-> member_opt st p) by (destruct p; cbn [member_opt]; [apply Mem|tauto]).
  assert (Lp1 : live_opt h p).
  { destruct p as [q|]; [|exact I]. cbn [live_opt] in *. apply live_data in Lp as (d & Ed). apply live_data. exists d.
    rewrite (proj2 (K q ltac:(intros ->; apply Nl, live_data; eauto))). exact Ed. }
  assert (Tk : taken (Store h (sroots st)) x p <-> taken st x p).
  { unfold taken. cbn [sheap]. split; intros (m & M & Pm & Nx); exists m.
    - apply Mem in M. assert (Hm : m <> n) by (intros ->; contradiction). destruct (K m Hm) as (K1 & K2).
      rewrite K1 in Pm. rewrite (name_data _ _ _ K2) in Nx. auto.
    - assert (Hm : m <> n) by (intros ->; contradiction). destruct (K m Hm) as (K1 & K2).
      rewrite K1, (name_data _ _ _ K2). split; [apply Mem; exact M|auto]. }
  destruct (add_node_ok (Store h (sroots st)) n p S1 Ln Lp1) as [(E1 & Why)|(A1 & A2 & A3 & (y & Ey & Hy & A4) & E1)].
  - left. rewrite E1. split; [|reflexivity]. cbn [sheap] in Why. destruct Why as [H|[H|[H|(y & Ey & H)]]].
    + exfalso. apply Nm, Mem, H.
    + left. congruence.
    + right. left. tauto.
    + right. right. assert (y = x) by congruence. subst y. apply Tk. exact H.
  - right. cbn [sheap] in *. assert (y = x) by congruence. subst y. split; [exact Hy|]. split; [apply Mo; exact A2|].
    split; [rewrite <- Tk; exact A4|].
    destruct (move_ok (Store h (sroots st)) n p S1 Ln A2 A3) as (h' & E' & _). cbn [sheap] in E'. rewrite E' in E1. cbn [bind] in E1.
    exists (Store h' (roots_after (Store h (sroots st)) n p)). rewrite E1. auto.
Qed.

(** ** Histories *)

Lemma fresh_tidy h n x t : grown h -> data h n = Ok (Frame x t) -> x <> [] -> children h n = Ok [] -> tidy h n.
Proof.
  intros G D Hx C.
  assert (On : forall m, above h n m -> m = n).
  { assert (L : live h n) by (apply live_data; eauto). destruct (links h n G L) as (cs & E & _ & H). rewrite C in E. injection E as <-.
    induction 1 as [m Lm|n p m P A IH]; [reflexivity|]. specialize (IH D C L H). subst p. apply H in P. destruct P. }
  split; [intros m A; rewrite (On m A); unfold node_name; rewrite D; cbn [bind fname]; congruence|].
  intros a b A B. left. rewrite (On a A), (On b B). reflexivity.
Qed.

Lemma call_sound b st st' : sound st -> call b st st' ->
  sound st' /\ (b = true -> well_named st -> well_named st').
Proof.
  intros S H. pose proof (sound_heap st S) as G.
  assert (Same : forall h', sound (Store h' (sroots st)) -> (forall m, member (Store h' (sroots st)) m <-> member st m) ->
            (forall m, member st m -> parent h' m = parent (sheap st) m /\ node_name h' m = node_name (sheap st) m) ->
            sound (Store h' (sroots st)) /\ (b = true -> well_named st -> well_named (Store h' (sroots st)))).
  { intros h' S' Mem K. split; [exact S'|]. intros _ (W1 & W2). split; cbn [sheap].
    - intros m M. apply Mem in M. rewrite (proj2 (K m M)). auto.
    - intros u v Mu Mv. apply Mem in Mu. apply Mem in Mv. destruct (K u Mu) as (A1 & A2), (K v Mv) as (B1 & B2).
      unfold apart. rewrite A1, A2, B1, B2. exact (W2 u v Mu Mv). }
  destruct H as [p d h n Lp Np E|x p t st' r Lp E|n p st' L Lp Td E|n r st' L Cl E|n p st' L Lp N Td E|t s st' b' Pt Ms W Td E|n st' m L E|n t h L E].
  - destruct (new_sound st p d S Lp Np) as (h' & n' & E' & Nl & _ & S' & Mem & _ & _ & _ & K).
    rewrite E' in E. injection E as <- <-. apply Same; auto.
    intros m M. assert (Hm : m <> n') by (intros ->; exact (Nl (member_live _ _ M))). destruct (K m Hm) as (K1 & K2).
    split; [exact K1|exact (name_data _ _ _ K2)].
  - destruct (new_sound st None (Frame x t) S I) as (h & n & E1 & Nl & Ln & S1 & Mem & P & D & C & K); [discriminate|].
    destruct (add_ok st x p t S Lp) as (h0 & n0 & E0 & _ & _ & _ & _ & _ & _ & Cases).
    rewrite E1 in E0. injection E0 as <- <-.
    assert (Nm : ~ member st n) by (intros M; exact (Nl (member_live _ _ M))).
    assert (X : forall m, member st m -> parent h m = parent (sheap st) m /\ node_name h m = node_name (sheap st) m).
    { intros m M. assert (Hm : m <> n) by (intros ->; contradiction). destruct (K m Hm) as (K1 & K2).
      split; [exact K1|exact (name_data _ _ _ K2)]. }
    destruct Cases as [(_ & E')|(Hx & Mp & Tk & st1 & E' & E2)]; rewrite E' in E; injection E as <- _.
    + apply Same; auto.
    + destruct (Same h S1 Mem X) as (_ & W1).
      assert (Lp1 : live_opt h p) by (destruct p as [q|]; [apply Mem in Mp; exact (member_live _ _ Mp)|exact I]).
      destruct (add_node_ok (Store h (sroots st)) n p S1 Ln Lp1) as [(E3 & _)|(A1 & A2 & A3 & (y & Ey & Hy & A4) & E3)]; [congruence|].
      destruct (move_ok (Store h (sroots st)) n p S1 Ln A2 A3) as (h' & E4 & S4 & _). cbn [sheap] in E4, E3. rewrite E4 in E3. cbn [bind] in E3.
      rewrite E2 in E3. injection E3 as ->. split; [exact S4|]. intros Hb W.
      apply (move_named (Store h (sroots st)) n p h'); auto.
      * right. exact (fresh_tidy h n x t (sound_heap _ S1) D Hx C).
      * exists y. auto.
  - destruct (add_node_ok st n p S L Lp) as [(E1 & _)|(A1 & A2 & A3 & (y & Ey & Hy & A4) & E1)]; [congruence|].
    destruct (move_ok st n p S L A2 A3) as (h' & E' & S' & _). rewrite E' in E1. cbn [bind] in E1. rewrite E in E1. injection E1 as ->.
    split; [exact S'|]. intros -> W. apply (move_named st n p h'); auto. exists y. auto.
  - destruct r.
    + destruct (del_rec_ok st n S L) as (h' & E' & S' & Lv & K & Mem). rewrite E' in E. injection E as <-.
      split; [exact S'|]. intros _ W. apply (well_named_sub st); [exact W|]. intros m M. split; [apply Mem in M; tauto|].
      apply K. exact (member_live _ _ M).
    + destruct (del_one_ok st n S L) as (h' & cs & C & E' & S' & Lv & Dt & Pr & Mem). rewrite E' in E. injection E as <-.
      split; [exact S'|]. intros -> W. destruct (Cl eq_refl eq_refl) as (Mn & Cl').
      assert (Old : forall m, member (Store h' (erase n (sroots st) ++ cs)) m -> member st m /\ m <> n).
      { intros m M. apply Mem in M as ([M|A] & Hm); [auto|]. split; [exact (member_down st n m Mn A)|exact Hm]. }
      split; cbn [sheap].
      * intros m M. apply Old in M as (M & Hm). rewrite (name_data _ _ _ (Dt m Hm)). apply (proj1 W), M.
      * intros u v Mu Mv. apply Old in Mu as (Mu & Hu). apply Old in Mv as (Mv & Hv).
        unfold apart. rewrite (name_data _ _ _ (Dt u Hu)), (name_data _ _ _ (Dt v Hv)).
        assert (Lu := member_live _ _ Mu). assert (Lw := member_live _ _ Mv).
        apply live_parent in Lu as (pu & Pu). apply live_parent in Lw as (pv & Pv).
        rewrite (Pr u pu Hu Pu), (Pr v pv Hv Pv).
        destruct (Nat.eq_dec u v) as [->|Huv]; [left; reflexivity|right].
        assert (X : forall p, is p (Some n) = true <-> p = Some n).
        { intros [q|]; cbn [is]; [rewrite Nat.eqb_eq; split; congruence|split; discriminate]. }
        assert (Orp : forall k pk, parent (sheap st) k = Ok pk -> k <> n -> (if is pk (Some n) then None else pk) = None -> orphan st n k).
        { intros k pk Pk Hk Ek. split; [exact Hk|]. destruct (is pk (Some n)) eqn:Q; [apply X in Q; subst; auto|subst; auto]. }
        destruct (proj2 W u v Mu Mv) as [H|[H|H]]; [contradiction| |right; exact H].
        rewrite Pu, Pv in H.
        destruct (is pu (Some n)) eqn:Qu.
        -- destruct (if is pv (Some n) then None else pv) as [q|] eqn:Qv; [left; congruence|].
           right. apply Cl'; auto; [apply (Orp u pu Pu Hu); rewrite Qu; reflexivity|exact (Orp v pv Pv Hv Qv)].
        -- destruct pu as [q|].
           ++ left. destruct (is pv (Some n)); congruence.
           ++ destruct (if is pv (Some n) then None else pv) as [q|] eqn:Qv; [left; congruence|].
              right. apply Cl'; auto; [apply (Orp u None Pu Hu); reflexivity|exact (Orp v pv Pv Hv Qv)].
  - destruct (set_parent_store st n p S L Lp) as [(E1 & _)|[(_ & _ & E1)|(Mp & Ne & (y & Ey & U) & E1)]]; [congruence| |].
    + rewrite E1 in E. injection E as <-. auto.
    + destruct (move_ok st n p S L Mp N) as (h' & E' & S' & _). rewrite E' in E1. cbn [bind] in E1. rewrite E in E1. injection E1 as ->.
      split; [exact S'|]. intros -> W. apply (move_named st n p h'); auto. exists y. auto.
  - assert (Nt : ~ member st t).
    { intros M. unfold fs_merge_tree in E. destruct (is_member_ok st t S (parent_live _ _ _ Pt)) as (c & Ec & Hc).
      rewrite Ec in E. cbn [bind] in E. rewrite (proj2 Hc M) in E. discriminate. }
    destruct (name_live _ _ (parent_live _ _ _ Pt)) as (x & Ex). destruct s as [s|].
    + cbn [member_opt] in Ms. destruct (name_live _ _ (member_live _ _ Ms)) as (y & Ey).
      destruct (merge_start_ok st t s x y S W Pt Nt Td Ex Ms Ey) as [(_ & E')|(_ & st1 & E' & S' & W' & _)]; [congruence|].
      rewrite E' in E. injection E as <- _. auto.
    + destruct (merge_none_ok st t x S W Pt Nt Td Ex) as (st1 & b1 & E' & S' & W' & _). rewrite E' in E. injection E as <- _. auto.
  - destruct (clone_sound st n S L) as (h' & m' & E' & _ & S' & Mem & K). rewrite E' in E. injection E as <- _.
    apply Same; auto. intros k M. destruct (K k (member_live _ _ M)) as (K1 & K2). split; [exact K1|exact (name_data _ _ _ K2)].
  - pose proof L as L'. apply live_data in L' as (d & D).
    destruct (write_sound st n t d S D) as (h' & E' & S' & Mem & _ & _ & P & Nn). rewrite E' in E. injection E as <-. apply Same; auto.
Qed.

Lemma history_sound b st : history b st -> sound st.
Proof.
  induction 1 as [|st st' _ IH C]; [|exact (proj1 (call_sound b st st' IH C))].
  constructor; cbn [sheap sroots]; [constructor|constructor|intros r []].
Qed.

Lemma history_named st : history true st -> well_named st.
Proof.
  induction 1 as [|st st' H IH C]; [|exact (proj2 (call_sound true st st' (history_sound _ _ H) C) eq_refl IH)].
  split; [intros n (r & [] & _)|intros a b (r & [] & _)].
Qed.

(** ** The destructor *)

Lemma delete_roots_ok roots : forall h, grown h -> NoDup roots -> (forall r, In r roots -> parent h r = Ok None) ->
  exists h', delete_roots h roots = Ok h' /\ grown h' /\
    (forall m, live h' m <-> live h m /\ ~ exists r, In r roots /\ above h r m) /\
    (forall m, live h' m -> kept h h' m).
Proof.
  induction roots as [|r roots IH]; intros h G ND P; cbn [delete_roots].
  - exists h. split; [reflexivity|]. split; [exact G|]. split; [|intros; split; reflexivity].
    intros m. split; [intros L; split; [exact L|intros (r & [] & _)]|tauto].
  - inversion ND as [|? ? N ND']; subst.
    destruct (delete_left h r G (P r (or_introl eq_refl))) as (h1 & -> & G1 & Lv & K & Ab & _). cbn [bind].
    assert (L1 : forall s, In s roots -> live h1 s).
    { intros s I. apply Lv. split; [exact (parent_live _ _ _ (P s (or_intror I)))|].
      intros A. apply N. rewrite (above_root_eq _ _ _ A (P s (or_intror I))). exact I. }
    destruct (IH h1 G1 ND') as (h' & E & G' & Lv' & K').
    { intros s I. rewrite (proj1 (K s (L1 s I))). apply P. right. exact I. }
    exists h'. split; [exact E|]. split; [exact G'|]. split.
    + intros m. rewrite Lv', Lv. split.
      * intros ((L & A) & B). split; [exact L|]. intros (s & [<-|I] & C); [exact (A C)|].
        apply B. exists s. split; [exact I|]. apply Ab; [apply Lv; auto|exact C].
      * intros (L & A). assert (Nr : ~ above h r m) by (intros C; apply A; exists r; split; [left; reflexivity|exact C]).
        split; [auto|]. intros (s & I & C). apply A. exists s. split; [right; exact I|]. apply Ab; [apply Lv; auto|exact C].
    + intros m L. pose proof (proj1 (Lv' m) L) as (L1m & _). destruct (K' m L) as (A1 & A2), (K m L1m) as (B1 & B2).
      split; congruence.
Qed.
End Calls.
