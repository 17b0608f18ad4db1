(** Full names, paths and lookup. *)
From Coq Require Import List Arith Bool ZArith Lia Ascii String.
From Verif Require Import Lib.Base Lib.Lists Lib.Str Tree.Model Tree.Spec Tree.Proofs Tree.Trees Tree.Copy Tree.Props
  Frames.Model Frames.Spec Frames.Above Frames.Store Frames.Merge Frames.Calls.
Import ListNotations.
Open Scope nat_scope.

(** ** Splitting *)

Lemma scan_plain x p : ~ In slash x -> scan (x ++ slash :: p) = (x, slash :: p).
Proof.
  induction x as [|c x IH]; cbn [app scan In]; intros N.
  - rewrite Ascii.eqb_refl. reflexivity.
  - destruct (Ascii.eqb_spec c slash) as [->|_]; [tauto|]. rewrite IH by tauto. reflexivity.
Qed.

Lemma scan_end x : ~ In slash x -> scan x = (x, []).
Proof.
  induction x as [|c x IH]; cbn [scan In]; intros N; [reflexivity|].
  destruct (Ascii.eqb_spec c slash) as [->|_]; [tauto|]. rewrite IH by tauto. reflexivity.
Qed.

Lemma meant_cons (x : str) l : filter meant (x :: l) = if meant x then x :: filter meant l else filter meant l.
Proof. reflexivity. Qed.

Lemma split_loop_ok segs : (forall x, In x segs -> ~ In slash x) -> forall fuel, List.length (slash_join segs) < fuel ->
  split_loop fuel (slash_join segs) = Ok (filter meant segs).
Proof.
  induction segs as [|x segs IH]; intros A fuel F.
  - destruct fuel; [lia|]. reflexivity.
  - assert (Nx := A x (or_introl eq_refl)). specialize (IH (fun y I => A y (or_intror I))).
    rewrite meant_cons.
    assert (Plain : forall c q, x = c :: q -> Ascii.eqb c slash = false).
    { intros c q ->. destruct (Ascii.eqb_spec c slash) as [->|]; [exfalso; apply Nx; left; reflexivity|reflexivity]. }
    assert (Mx : forall c q, x = c :: q -> meant x = negb (str_eqb x (lit "."))).
    { intros c q ->. reflexivity. }
    destruct segs as [|y segs].
    + cbn [slash_join] in *. destruct fuel as [|fuel]; [lia|]. destruct x as [|c q]; [reflexivity|].
      cbn [split_loop]. rewrite (Plain c q eq_refl), (scan_end _ Nx). cbn [tl].
      rewrite (Mx c q eq_refl). destruct fuel as [|fuel]; [cbn [List.length] in F; lia|].
      cbn [split_loop bind filter]. destruct (str_eqb (c :: q) (lit ".")); reflexivity.
    + change (slash_join (x :: y :: segs)) with (x ++ slash :: slash_join (y :: segs)) in *.
      set (rest := y :: segs) in *. clearbody rest.
      rewrite app_length in F. cbn [List.length] in F.
      destruct fuel as [|fuel]; [lia|]. destruct x as [|c q].
      * cbn [app split_loop]. rewrite Ascii.eqb_refl. change (meant []) with false. cbv iota. apply IH.
        cbn [List.length] in F. lia.
      * cbn [app split_loop]. rewrite (Plain c q eq_refl).
        change (c :: q ++ slash :: slash_join rest) with ((c :: q) ++ slash :: slash_join rest).
        rewrite (scan_plain _ _ Nx). cbn [tl].
        rewrite IH by (cbn [List.length] in F; lia). cbn [bind]. rewrite (Mx c q eq_refl).
        destruct (str_eqb (c :: q) (lit ".")); reflexivity.
Qed.

Lemma split_path_ok p xs : elements p xs -> split_path p = Ok xs.
Proof. intros (segs & A & -> & ->). apply split_loop_ok; [exact A|]. lia. Qed.

Lemma segments_exist (p : str) : exists segs, segs <> [] /\ (forall x, In x segs -> ~ In slash x) /\ p = slash_join segs.
Proof.
  induction p as [|c p (segs & N & A & E)].
  - exists [[]]. split; [discriminate|]. split; [|reflexivity]. intros x [<-|[]]. auto.
  - destruct segs as [|x segs]; [contradiction|]. destruct (Ascii.eqb_spec c slash) as [->|H].
    + exists ([] :: x :: segs). split; [discriminate|]. split; [|rewrite E; reflexivity].
      intros y [<-|I]; [auto|apply A; exact I].
    + exists ((c :: x) :: segs). split; [discriminate|]. split.
      * intros y [<-|I]; [|apply A; right; exact I]. intros [J|J]; [congruence|]. exact (A x (or_introl eq_refl) J).
      * rewrite E. destruct segs; reflexivity.
Qed.

Lemma elements_exist p : exists xs, elements p xs.
Proof. destruct (segments_exist p) as (segs & _ & A & E). exists (filter meant segs), segs. auto. Qed.

Lemma elements_det p xs ys : elements p xs -> elements p ys -> xs = ys.
Proof. intros A B. apply split_path_ok in A. apply split_path_ok in B. congruence. Qed.

Lemma elements_slash p xs : elements p xs -> elements (slash :: p) xs.
Proof.
  intros (segs & A & E & X). destruct segs as [|x segs].
  - cbn [slash_join] in E. subst p. exists [[]; []]. split; [intros y [<-|[<-|[]]]; auto|]. split; [reflexivity|exact X].
  - exists ([] :: x :: segs). split; [intros y [<-|I]; [auto|exact (A y I)]|]. split; [rewrite E; reflexivity|exact X].
Qed.

Lemma elements_dots p xs : elements p xs -> elements (lit ".../" ++ p) (lit "..." :: xs).
Proof.
  intros (segs & A & E & X).
  assert (D : ~ In slash (lit "...")) by (intros H; cbn in H; intuition discriminate).
  destruct segs as [|x segs].
  - cbn [slash_join] in E. subst p. exists [lit "..."; []]. split; [intros y [<-|[<-|[]]]; auto|]. subst xs. split; reflexivity.
  - exists (lit "..." :: x :: segs). split; [intros y [<-|I]; [exact D|exact (A y I)]|].
    split; [rewrite E; reflexivity|]. subst xs. reflexivity.
Qed.

Lemma slashed_join (xs : list str) : xs <> [] -> slashed xs = slash_join ([] :: xs).
Proof.
  induction xs as [|x xs IH]; intros N; [contradiction|]. destruct xs as [|y xs].
  - cbn. rewrite app_nil_r. reflexivity.
  - change (slashed (x :: y :: xs)) with (slash :: x ++ slashed (y :: xs)). rewrite IH by discriminate. reflexivity.
Qed.

Lemma proper_meant x : proper x -> meant x = true.
Proof.
  intros (A & _ & B & _). unfold meant. apply negb_true_iff, orb_false_iff. split; apply str_eqb_false; assumption.
Qed.

Lemma elements_proper xs : xs <> [] -> (forall x, In x xs -> proper x) -> elements (slashed xs) xs.
Proof.
  intros N A. exists ([] :: xs). split; [intros y [<-|I]; [auto|apply A; exact I]|]. split; [apply slashed_join, N|].
  change (xs = filter meant xs). symmetry. clear N.
  induction xs as [|x xs IH]; [reflexivity|]. rewrite meant_cons, (proper_meant x) by (apply A; left; reflexivity).
  f_equal. apply IH. intros y I. apply A. right. exact I.
Qed.

Section Names.
Context {T : Type}.
Implicit Types (h : heap (frame T)) (st : store T).

(** ** Full names *)

Lemma joined_ok h l : (forall n, In n l -> live h n) -> forall acc, exists xs,
  Forall2 (fun n x => node_name h n = Ok x) l xs /\ joined h l acc = Ok (acc ++ slashed xs).
Proof.
  induction l as [|n l IH]; intros A acc.
  - exists []. split; [constructor|]. cbn. rewrite app_nil_r. reflexivity.
  - cbn [joined]. destruct (name_live h n (A n (or_introl eq_refl))) as (x & E). rewrite E. cbn [bind].
    destruct (IH (fun m I => A m (or_intror I)) (acc ++ slash :: x)) as (xs & F & ->).
    exists (x :: xs). split; [constructor; assumption|]. unfold slashed. cbn [flat_map]. rewrite <- !app_assoc. reflexivity.
Qed.

Lemma path_names h n l : path h n l -> forall xs, Forall2 (fun n x => node_name h n = Ok x) (rev l) xs -> names_to h n xs.
Proof.
  induction 1 as [n P|n p l P H IH]; intros xs F.
  - cbn [rev app] in F. inversion F as [|? x ? ys E F']; subst. inversion F'; subst. constructor; assumption.
  - cbn [rev] in F. apply Forall2_app_inv_l in F as (ys & zs & F1 & F2 & ->).
    inversion F2 as [|? x ? ws E F']; subst. inversion F'; subst. econstructor; [exact P|exact (IH ys F1)|exact E].
Qed.

Lemma path_name_ok h n : grown h -> live h n -> exists xs, names_to h n xs /\ path_name h n = Ok (slashed xs).
Proof.
  intros G L. destruct (grown_path h G n L) as (l & P). unfold path_name. rewrite (ancestry_path h n l P). cbn [bind].
  destruct (joined_ok h (rev l)) with (acc := @nil ascii) as (xs & F & E).
  { intros m I. apply in_rev in I. exact (above_live_top _ _ _ (proj1 (path_above h n l P m) I)). }
  exists xs. split; [exact (path_names h n l P xs F)|exact E].
Qed.

Lemma names_to_det h n xs : names_to h n xs -> forall ys, names_to h n ys -> xs = ys.
Proof.
  induction 1 as [n x P E|n p xs x P H IH E]; intros ys H'; inversion H' as [? y P' E'|? p' ys' y P' H'' E']; subst; try congruence.
  assert (p' = p) by congruence. subst p'. rewrite (IH ys' H''). congruence.
Qed.

Lemma names_to_place h n xs : names_to h n xs -> forall r, above h r n -> parent h r = Ok None -> from_node h r xs n.
Proof.
  induction 1 as [n x P E|n p xs x P H IH E]; intros r A R.
  - rewrite (above_root_eq _ _ _ A P). exists x, []. split; [reflexivity|]. split; [exact E|constructor; exact (parent_live _ _ _ P)].
  - apply above_cases in A as [->|(q & Q & A)]; [congruence|]. assert (q = p) by congruence. subst q.
    destruct (IH r A R) as (y & ys & -> & Ey & Hy). exists y, (ys ++ [x]). split; [reflexivity|]. split; [exact Ey|].
    apply (at_path_app _ _ _ _ Hy). econstructor; [exact P|exact E|constructor; exact (parent_live _ _ _ P)].
Qed.

Lemma place_names_to h r xs n : parent h r = Ok None -> from_node h r xs n -> names_to h n xs.
Proof.
  intros R (x & ys & -> & E & A).
  assert (X : forall m zs k, at_path h m zs k -> forall ws, names_to h m ws -> names_to h k (ws ++ zs)).
  { induction 1 as [m L|m c z zs k P Ez H IH]; intros ws W; [rewrite app_nil_r; exact W|].
    replace (ws ++ z :: zs) with ((ws ++ [z]) ++ zs) by (rewrite <- app_assoc; reflexivity). apply IH.
    econstructor; eassumption. }
  apply (X r ys n A [x]). constructor; assumption.
Qed.

(** ** Following a path *)

Lemma search_ok rec h (W : nat -> option nat -> Prop) : forall fuel nodes l,
  bfs_loop fuel h nodes = Ok l -> (forall n, In n l -> exists r, rec n = Ok r /\ W n r) ->
  exists r, search rec h fuel nodes = Ok r /\ first_hit W l r.
Proof.
  induction fuel as [|fuel IH]; intros nodes l E A; [discriminate|].
  cbn [bfs_loop search] in *. destruct nodes as [|n rest]; [injection E as <-; exists None; split; [reflexivity|constructor]|].
  destruct (children h n) as [cs| |] eqn:C; cbn [bind] in E; try discriminate.
  destruct (bfs_loop fuel h (rest ++ cs)) as [l'| |] eqn:B; cbn [bind] in E; try discriminate. injection E as <-.
  destruct (A n (or_introl eq_refl)) as (r & -> & Wr). cbn [bind]. destruct r as [m|].
  - exists (Some m). split; [reflexivity|]. constructor. exact Wr.
  - cbn [bind]. destruct (IH (rest ++ cs) l' B (fun k I => A k (or_intror I))) as (r & E & F).
    exists r. split; [exact E|]. apply hit_later; assumption.
Qed.

Lemma levels_ids k : forall ts m, In m (levels k ts) -> exists t, In t ts /\ In m (ids t).
Proof.
  induction k as [|k IH]; intros ts m I; [destruct ts; destruct I|].
  destruct ts as [|t0 ts0]; [destruct I|]. set (ts := t0 :: ts0) in *. cbn [levels] in I.
  change (In m (map tid ts ++ levels k (flat_map tsub ts))) in I.
  apply in_app_iff in I as [I|I].
  - apply in_map_iff in I as (t & <- & It). exists t. split; [exact It|]. destruct t. left. reflexivity.
  - apply IH in I as (t & It & Im). apply in_flat_map in It as (t' & It' & It). exists t'. split; [exact It'|].
    destruct t' as [j us]. right. apply in_flat_map. exists t. auto.
Qed.

Lemma level_below h n t : grown h -> live h n -> tree_at h n t -> forall m, In m (level_order t) -> above h n m.
Proof.
  intros G L Ht m I. apply levels_ids in I as (t' & [<-|[]] & I).
  exact (proj1 (tree_above _ _ _ (grown_good _ G) (grown_path _ G n L) Ht m) I).
Qed.

Lemma match_ok h els : grown h -> forall n, live h n -> exists r, match_node h els n = Ok r /\ walks h els n r.
Proof.
  intros G. induction els as [|e els IH]; intros n L; cbn [match_node].
  - exists (Some n). split; [reflexivity|constructor].
  - destruct (str_eqb e (lit "..")) eqn:E1.
    { apply str_eqb_spec in E1 as ->. pose proof L as Lp. apply live_parent in Lp as (p & P). rewrite P. cbn [bind].
      destruct p as [p|].
      - destruct (IH p (parent_live_up _ _ _ G P)) as (r & E & W). exists r. split; [exact E|]. econstructor; eassumption.
      - exists None. split; [reflexivity|]. constructor. exact P. }
    destruct (str_eqb e (lit "...")) eqn:E2.
    { apply str_eqb_spec in E2 as ->. destruct (tree_exists h n G L) as (t & Ht).
      pose proof (breadth_first_by_level h n t G Ht) as B. unfold breadth_first_traverse in B.
      destruct (search_ok (match_node h els) h (walks h els) _ _ _ B) as (r & E & F).
      - intros m I. apply IH. exact (above_live _ _ _ (level_below h n t G L Ht m I)).
      - exists r. split; [exact E|]. econstructor; eassumption. }
    assert (Nd : no_dots e) by (split; apply str_eqb_false; assumption).
    destruct (links h n G L) as (cs & C & _ & Hc). rewrite C. cbn [bind].
    destruct (named_ok h e cs) as (o & -> & Ho); [intros c I; apply Hc in I; exact (parent_live _ _ _ I)|]. cbn [bind].
    destruct o as [c|].
    + destruct Ho as (I & Ec). apply Hc in I. destruct (IH c (parent_live _ _ _ I)) as (r & E & W).
      exists r. split; [exact E|]. eapply walk_child; eassumption.
    + exists None. split; [reflexivity|]. apply walk_lost; [exact Nd|]. intros c P. apply Ho, Hc, P.
Qed.

Lemma root_self h r : grown h -> parent h r = Ok None -> root h r = Ok r.
Proof.
  intros G P. destruct (root_is_top h r G (parent_live _ _ _ P)) as (s & E & A & _).
  rewrite E. f_equal. exact (above_root_eq _ _ _ A P).
Qed.

Lemma absolute_lookup h r path els : grown h -> parent h r = Ok None -> absolute path = true -> elements path els ->
  exists o, node_lookup h (Some r) path = Ok o /\ root_walks h els r o.
Proof.
  intros G P Ab El. assert (L := parent_live _ _ _ P). unfold node_lookup. rewrite (split_path_ok _ _ El). cbn [bind].
  rewrite Ab, (root_self h r G P). cbn [bind]. destruct els as [|e els].
  - exists (Some r). split; [reflexivity|constructor].
  - destruct (str_eqb e (lit "...")) eqn:E.
    + apply str_eqb_spec in E as ->. destruct (match_ok h (lit "..." :: els) G r L) as (o & Eo & W). exists o. split; [exact Eo|]. constructor. exact W.
    + apply str_eqb_false in E. destruct (name_live h r L) as (x & Ex). rewrite Ex. cbn [bind].
      destruct (str_eqb x e) eqn:Q.
      * apply str_eqb_spec in Q as ->. destruct (match_ok h els G r L) as (o & Eo & W). exists o. split; [exact Eo|]. apply root_this; assumption.
      * apply str_eqb_false in Q. exists None. split; [reflexivity|]. apply root_other; congruence.
Qed.

Lemma first_root_ok h path (W : nat -> option nat -> Prop) roots :
  (forall r, In r roots -> exists o, node_lookup h (Some r) path = Ok o /\ W r o) ->
  exists o, first_root h roots path = Ok o /\ first_hit W roots o.
Proof.
  induction roots as [|r roots IH]; intros A; cbn [first_root].
  - exists None. split; [reflexivity|constructor].
  - destruct (A r (or_introl eq_refl)) as (o & -> & Wo). cbn [bind]. destruct o as [m|].
    + exists (Some m). split; [reflexivity|constructor; exact Wo].
    + destruct IH as (o & E & F); [intros; apply A; right; assumption|]. exists o. split; [exact E|]. apply hit_later; assumption.
Qed.

Lemma roots_absolute st path els : sound st -> absolute path = true -> elements path els ->
  exists o, first_root (sheap st) (sroots st) path = Ok o /\ leads st els o.
Proof.
  intros S Ab El. apply first_root_ok. intros r I.
  exact (absolute_lookup _ r path els (sound_heap st S) (sound_roots st S r I) Ab El).
Qed.

Lemma relative_lookup h s path els : grown h -> live h s -> absolute path = false -> elements path els ->
  exists o, node_lookup h (Some s) path = Ok o /\ walks h els s o.
Proof.
  intros G L Ab El. unfold node_lookup. rewrite (split_path_ok _ _ El). cbn [bind]. rewrite Ab. exact (match_ok h els G s L).
Qed.

Lemma roots_relative st path els : sound st -> absolute path = false -> elements path els ->
  exists o, first_root (sheap st) (sroots st) path = Ok o /\ first_hit (walks (sheap st) els) (sroots st) o.
Proof.
  intros S Ab El. apply first_root_ok. intros r I.
  exact (relative_lookup _ r path els (sound_heap st S) (parent_live _ _ _ (sound_roots st S r I)) Ab El).
Qed.

(** ** Names of all frames *)

Definition full_of h n (s : str) : Prop := exists xs, names_to h n xs /\ s = slashed xs.

Lemma append_names_app h a b : append_names h (a ++ b) =
  (x <- append_names h a ;; y <- append_names h b ;; Ok (x ++ y)).
Proof.
  induction a as [|e a IH]; cbn [app append_names bind]; [destruct (append_names h b); reflexivity|].
  destruct e; try exact IH. destruct (path_name h n); cbn [bind]; try reflexivity. rewrite IH.
  destruct (append_names h a); cbn [bind]; try reflexivity. destruct (append_names h b); reflexivity.
Qed.

Lemma append_names_ok h t : (forall n, In n (ids t) -> exists s, path_name h n = Ok s /\ full_of h n s) ->
  exists l, append_names h (pre_events t) = Ok l /\ Forall2 (full_of h) (ids t) l.
Proof.
  induction t as [n ts IH] using tree_ind'. intros A.
  assert (X : exists l, append_names h (flat_map pre_events ts) = Ok l /\ Forall2 (full_of h) (flat_map ids ts) l).
  { assert (A' : forall t, In t ts -> forall m, In m (ids t) -> exists s, path_name h m = Ok s /\ full_of h m s).
    { intros t It m Im. apply A. right. apply in_flat_map. eauto. }
    clear A. induction IH as [|t ts H _ IH]; [exists []; split; [reflexivity|constructor]|].
    destruct (H (A' t (or_introl eq_refl))) as (l1 & E1 & F1).
    destruct IH as (l2 & E2 & F2); [intros t' It; apply A'; right; exact It|].
    exists (l1 ++ l2). cbn [flat_map]. rewrite append_names_app, E1, E2. split; [reflexivity|]. apply Forall2_app; assumption. }
  destruct X as (l & E & F). destruct (A n (or_introl eq_refl)) as (s & Es & Fs).
  exists (s :: l). cbn [pre_events append_names ids]. rewrite Es. cbn [bind]. split; [|constructor; assumption].
  destruct ts as [|t0 ts0]; [cbn [append_names bind flat_map] in *; injection E as <-; reflexivity|].
  set (ts := t0 :: ts0) in *. clearbody ts. cbn [append_names]. rewrite append_names_app, E. cbn [bind append_names].
  rewrite app_nil_r. reflexivity.
Qed.

Lemma names_below_ok h : grown h -> forall roots, (forall r, In r roots -> parent h r = Ok None) ->
  exists ts l, Forall2 (tree_at h) roots ts /\ names_below h roots = Ok l /\ Forall2 (full_of h) (flat_map ids ts) l.
Proof.
  intros G. induction roots as [|r roots IH]; intros P; cbn [names_below].
  - exists [], []. repeat constructor.
  - assert (Pr := P r (or_introl eq_refl)). assert (L := parent_live _ _ _ Pr).
    destruct (tree_exists h r G L) as (t & Ht). rewrite (pre_order_from_root h r t G Ht Pr). cbn [bind].
    destruct (append_names_ok h t) as (a & Ea & Fa).
    { intros n I. assert (Ln : live h n) by exact (above_live _ _ _ (proj1 (tree_above _ _ _ (grown_good _ G) (grown_path _ G r L) Ht n) I)).
      destruct (path_name_ok h n G Ln) as (xs & Nx & E). exists (slashed xs). split; [exact E|]. exists xs. auto. }
    rewrite Ea. cbn [bind]. destruct IH as (ts & l & F & E & Fl); [intros; apply P; right; assumption|]. rewrite E. cbn [bind].
    exists (t :: ts), (a ++ l). split; [constructor; assumption|]. split; [reflexivity|]. cbn [flat_map]. apply Forall2_app; assumption.
Qed.

Lemma forest_ids st ts : sound st -> Forall2 (tree_at (sheap st)) (sroots st) ts ->
  NoDup (flat_map ids ts) /\ forall m, In m (flat_map ids ts) <-> member st m.
Proof.
  intros S F. pose proof (sound_heap st S) as G. unfold member.
  assert (P := sound_roots st S). assert (ND := sound_nodup st S). revert P ND.
  induction F as [|r t roots ts Ht F IH]; intros P ND.
  - split; [constructor|]. intros m. split; [intros []|intros (r & [] & _)].
  - assert (Pr := P r (or_introl eq_refl)). assert (L := parent_live _ _ _ Pr).
    inversion ND as [|? ? N ND']; subst. destruct IH as (ND2 & M2); [intros; apply P; right; assumption|exact ND'|].
    pose proof (tree_above _ _ _ (grown_good _ G) (grown_path _ G r L) Ht) as Ab.
    destruct (grown_path _ G r L) as (l & Pl).
    cbn [flat_map]. split.
    + apply NoDup_app_intro; [exact (tree_nodup _ t (grown_good _ G) r l Pl Ht)|exact ND2|].
      intros m I1 I2. apply Ab in I1. apply M2 in I2 as (s & Is & A).
      apply N. rewrite (above_roots_eq _ r s m Pr (P s (or_intror Is)) I1 A). exact Is.
    + intros m. rewrite in_app_iff, Ab, M2. split.
      * intros [A|(s & I & A)]; [exists r; split; [left; reflexivity|exact A]|exists s; split; [right; exact I|exact A]].
      * intros (s & [<-|I] & A); [left; exact A|right; exists s; auto].
Qed.

(** ** Results belong to the store *)

Lemma hit_in (W : nat -> option nat -> Prop) l m : first_hit W l (Some m) -> exists n, In n l /\ W n (Some m).
Proof.
  remember (Some m) as o eqn:E. induction 1 as [|n l k H|n l r H H' IH]; [discriminate| |].
  - injection E as ->. exists n. split; [left; reflexivity|exact H].
  - destruct (IH E) as (k & I & Wk). exists k. split; [right; exact I|exact Wk].
Qed.

Lemma hit_none_all (W : nat -> option nat -> Prop) l : first_hit W l None -> forall n, In n l -> W n None.
Proof.
  remember (@None nat) as o eqn:E. induction 1 as [|n l k H|n l r H H' IH]; intros i I; [destruct I|discriminate|].
  destruct I as [<-|I]; [rewrite E; exact H|exact (IH E i I)].
Qed.

Lemma walks_member st xs : sound st -> forall n o, walks (sheap st) xs n o -> member st n -> forall m, o = Some m -> member st m.
Proof.
  intros S. pose proof (sound_heap st S) as G. induction xs as [|x xs IH]; intros n o W M m ->.
  - inversion W; subst. exact M.
  - inversion W as [|? p ? ? P W'| |? t ? ? Ht H|? c ? ? ? Nd P E W'|]; subst.
    + apply (IH p _ W'); [|reflexivity]. exact (member_up st p n S M (above_up _ _ _ G P)).
    + apply hit_in in H as (k & I & W'). apply (IH k _ W'); [|reflexivity].
      apply (member_down st n k M). exact (level_below _ n t G (member_live _ _ M) Ht k I).
    + apply (IH c _ W'); [|reflexivity]. exact (member_down st n c M (above_up _ _ _ G P)).
Qed.

Lemma root_walks_member st xs r o : sound st -> root_walks (sheap st) xs r o -> member st r -> forall m, o = Some m -> member st m.
Proof.
  intros S W M m ->. inversion W as [|ys ? ? W'|y ys ? ? Ny Ey W'|]; subst.
  - exact M.
  - exact (walks_member st _ S r _ W' M m eq_refl).
  - exact (walks_member st _ S r _ W' M m eq_refl).
Qed.

(** ** A path of proper names *)

Lemma walk_down h xs : grown h -> (forall x, In x xs -> no_dots x) -> forall n m, det h n -> at_path h n xs m ->
  forall o, walks h xs n o -> o = Some m.
Proof.
  intros G. induction xs as [|x xs IH]; intros A n m Dn H o W.
  - inversion H; subst. inversion W; subst; reflexivity.
  - inversion H as [|? c ? ? ? P E H']; subst. destruct (A x (or_introl eq_refl)) as (N1 & N2).
    inversion W as [|? p ? ? P' W'|? ? P'|? t ? ? Ht F|? c' ? ? ? Nd P' E' W'|? ? ? Nd L]; subst;
      try (exfalso; apply N1; reflexivity); try (exfalso; apply N2; reflexivity).
    + rewrite (det_one h n c' c x Dn P' P E' E) in W'.
      apply (IH (fun y I => A y (or_intror I)) c m (det_child h n c Dn P) H' o W').
    + exfalso. exact (L c P E).
Qed.

Lemma leads_down st xs m : sound st -> well_named st -> (forall x, In x xs -> no_dots x) -> placed st xs m ->
  forall o, leads st xs o -> o = Some m.
Proof.
  intros S W A (r & I & x & ys & -> & E & H) o L. pose proof (sound_heap st S) as G.
  destruct (A x (or_introl eq_refl)) as (_ & N2).
  assert (Dr : det (sheap st) r) by exact (tidy_det _ _ G (named_tidy st r S W (root_member st r S I))).
  assert (Oth : forall s, In s (sroots st) -> node_name (sheap st) s = Ok x -> s = r).
  { intros s Is Es. destruct (proj2 W s r (root_member st s S Is) (root_member st r S I)) as [Q|[Q|Q]]; [exact Q| |congruence].
    rewrite (sound_roots st S s Is), (sound_roots st S r I) in Q. congruence. }
  assert (Wr : forall p, root_walks (sheap st) (x :: ys) r p -> p = Some m).
  { intros p Wp. inversion Wp as [|zs ? ? W'|z zs ? ? Nz Ez W'|z zs ? Nz Ez]; subst; try (exfalso; apply N2; reflexivity); try congruence.
    exact (walk_down _ ys G (fun y J => A y (or_intror J)) r m Dr H p W'). }
  unfold leads in L. clear - I L Oth Wr E N2.
  revert I Oth L. generalize (sroots st). induction l as [|s l IH]; intros I Sub L; [destruct I|].
  inversion L as [|? ? k Wk|? ? p Wn L']; subst.
  - destruct (Nat.eq_dec s r) as [->|Hs]; [exact (Wr _ Wk)|].
    exfalso. inversion Wk as [|zs ? ? W'|z zs ? ? Nz Ez W'|]; subst; [apply N2; reflexivity|].
    apply Hs, Sub; [left; reflexivity|exact Ez].
  - destruct (Nat.eq_dec s r) as [->|Hs]; [specialize (Wr _ Wn); discriminate|].
    destruct I as [->|I]; [contradiction|]. apply IH; [exact I|intros; apply Sub; [right|]; assumption|exact L'].
Qed.
End Names.
