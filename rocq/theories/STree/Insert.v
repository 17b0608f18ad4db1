(** Spatial trees: insertion keeps the tree in order. *)
From Verif Require Import Lib.Base Lib.Lists STree.Model STree.Spec STree.Geom STree.Grid STree.Proofs STree.Build.
From Coq Require Import List Arith Bool ZArith QArith Lqa Lia Permutation.
Import ListNotations.

Section Insert.
Context (pbox : nat -> box).
Notation placed := (placed pbox).
Notation tight := (tight pbox).
Notation kept := (kept pbox).

(** ** Growing *)

Lemma aligned_same k b B B' : aligned k b B -> Forall2 same B B' -> aligned k b B'.
Proof.
  intros A. revert B'. induction A as [|i j b B (a & E1 & E2 & L) _ IH]; intros B' E; inversion E as [|? j' ? B'' (S1 & S2) E']; subst;
    constructor; auto.
  exists a. rewrite <- S1, <- S2. auto.
Qed.

Lemma quads_same B B' bb : Forall2 same B B' -> Forall (fun q => contains q bb = false) (split_bbox B) ->
  Forall (fun q => contains q bb = false) (split_bbox B').
Proof.
  intros E. apply split_eq in E. induction E as [|q q' l l' Eq _ IH]; intros H; [constructor|].
  inversion H; subst. constructor; [|auto]. rewrite <- (contains_eq _ _ _ Eq). assumption.
Qed.

Lemma ends_quads bb n : regular n -> Forall (fun k => contains (tbox k) bb = false) (tkids n) ->
  (tkids n = [] -> Forall (fun q => contains q bb = false) (split_bbox (tbox n))) ->
  Forall (fun q => contains q bb = false) (split_bbox (tbox n)).
Proof.
  destruct n as [b l ks]. rewrite regular_node. cbn [tkids tbox]. intros ([->|E] & _) K H; [auto|].
  clear H. revert K. remember (map tbox ks) as bs eqn:Eb. revert ks Eb.
  induction E as [|q q' bs qs Eq _ IH]; intros ks Eb K; [constructor|]. destruct ks as [|k ks]; [discriminate|].
  injection Eb as -> ->. inversion K; subst. constructor; [|eauto]. rewrite <- (contains_eq _ _ _ Eq). assumption.
Qed.

Lemma in_split_quads B q b : b <> [] -> In q (split_bbox B) -> contains q b = true -> In q (quadrants B).
Proof.
  intros N. unfold split_bbox. destruct (empty B); [|auto]. intros J. apply repeat_spec in J. subst q. discriminate.
Qed.

Lemma aligned_step k b B q : b <> [] -> Forall (fun i => 0 < size i) b -> aligned k b B ->
  In q (split_bbox B) -> contains q b = true -> exists k', aligned k' b q.
Proof.
  intros N P A J C. pose proof (in_split_quads _ _ _ N J C) as Jq. pose proof C as C0.
  apply contains_iff in C as (_ & W).
  destruct k as [|k]; [exfalso|exists k; eapply aligned_quad; eauto].
  apply aligned0 in A. destruct b as [|i b]; [congruence|]. inversion A as [|j ? B' ? (S1 & S2) A']; subst.
  apply split_head in J as [->|(h & q' & -> & Sz)]; [discriminate|].
  inversion W as [|? ? ? ? (W1 & W2) _]; subst. inversion P; subst. unfold size in *. lra.
Qed.

Lemma aligned_path b : b <> [] -> Forall (fun i => 0 < size i) b -> forall rel t n k,
  regular t -> aligned k b (tbox t) -> chain b rel t -> at_path rel t = Some n -> exists k', aligned k' b (tbox n).
Proof.
  intros N P. induction rel as [|i rel IH]; intros t n k R A C E; cbn [at_path chain] in *.
  - injection E as ->. eauto.
  - destruct C as (_ & c & Ec & Cc). rewrite Ec in E. destruct t as [B l ks]. cbn [tkids tbox] in *.
    pose proof R as R0. apply regular_node in R as (Q & Rk). apply nth_error_In in Ec as Jc.
    destruct Q as [->|Q]; [destruct Jc|].
    assert (X : exists q, In q (split_bbox B) /\ Forall2 same (tbox c) q).
    { clear - Q Jc. remember (map tbox ks) as bs eqn:Eb. revert ks Eb Jc. induction Q as [|x y bs qs E _ IH]; intros ks Eb J.
      - destruct ks; [destruct J|discriminate].
      - destruct ks as [|k ks]; [discriminate|]. injection Eb as -> ->. destruct J as [->|J].
        + exists y. split; [left; reflexivity|exact E].
        + destruct (IH ks eq_refl J) as (q & Jq & Eq). exists q. split; [right; exact Jq|exact Eq]. }
    destruct X as (q & Jq & Eq).
    assert (Cq : contains q b = true).
    { rewrite <- (contains_eq _ _ _ Eq). destruct rel; apply Cc. }
    destruct (aligned_step k b B q N P A Jq Cq) as (k' & A').
    rewrite Forall_forall in Rk.
    apply (IH c n k'); auto. eapply aligned_same; [exact A'|]. apply box_eq_sym. exact Eq.
Qed.

Lemma volume_eq a b : Forall2 same a b -> volume a == volume b.
Proof.
  induction 1 as [|i j a b (E1 & E2) _ IH]; cbn [volume fold_right]; [reflexivity|].
  change (size i * volume a == size j * volume b). rewrite IH. unfold size. rewrite E1, E2. reflexivity.
Qed.

Lemma volume_pos b : Forall (fun i => 0 < size i) b -> 0 < volume b.
Proof.
  induction 1 as [|i b P _ IH]; [reflexivity|]. change (0 < size i * volume b).
  apply Qmult_lt_0_compat; assumption.
Qed.

Lemma chain_mono b c path : contains b c = true -> forall t, chain b path t -> chain c path t.
Proof.
  intros S. induction path as [|i p IH]; intros t (C & H); (split; [eapply contains_trans; eauto|]).
  - exact I.
  - destruct H as (k & E & Ck). exists k. auto.
Qed.

Lemma replace_tight p f : forall t n, tight t -> at_path p t = Some n -> tight (f n) -> tight (replace p f t).
Proof.
  induction p as [|i p IH]; intros t n P A Pf; cbn [at_path] in A.
  - injection A as ->. exact Pf.
  - destruct (nth_error (tkids t) i) as [k|] eqn:E; [|discriminate].
    rewrite (replace_cons i p f t k E). destruct t as [b l ks]. cbn [tkids tbox tlist] in *.
    apply tight_node in P as (T & Pk). apply tight_node. split; [exact T|].
    apply Forall_upd; [exact Pk|]. eapply IH; eauto. rewrite Forall_forall in Pk. apply Pk. eapply nth_error_In; eauto.
Qed.

(** The tree after growing: everything that was there, in a box that also
    contains [nb]. *)
Record grown (t t' : tree) : Prop := Grown {
  g_perm : Permutation (elems t') (elems t);
  g_placed : placed t';
  g_regular : regular t';
  g_solid : solid (tbox t');
  g_inside : contains (tbox t') (tbox t) = true;
  g_tight : tight t -> tight t'
}.

Lemma grow_root_ok fuel t nb t' : placed t -> regular t -> proper (tbox t) -> tbox t <> [] ->
  length (tbox t) = length nb -> grow_root fuel t nb = Ok t' ->
  grown t t' /\ (empty nb = false -> contains (tbox t') nb = true).
Proof.
  intros P R Pr N L H. unfold grow_root in H.
  destruct (grow_bbox_on_grid (tbox t) nb) as [super| |] eqn:Eg; cbn [bind] in H; try discriminate.
  destruct (grid_ok _ _ _ Pr L N Eg) as (Pos & (p & Al) & Cs & Cn).
  destruct (visit fuel true (-1) (tbox t) 0 [] (leaf super) nothing) as [[root st]| |] eqn:Ev; cbn [bind] in H; try discriminate.
  apply (visit_ok pbox) in Ev. destruct Ev as [(C & _)|(_ & W)]; [cbn [leaf tbox] in C; congruence|].
  destruct W as [Wk (rel & Wn & (Ch & n & An & Nk) & Wq) _ _ _]. cbn [app] in Wn. rewrite Wn in H.
  rewrite An in H. specialize (Wq eq_refl eq_refl n An).
  destruct (leaf_ok pbox super) as (_ & Rl & Tl).
  pose proof (kept_regular _ _ _ Wk Rl) as Rr. pose proof (kept_tight _ _ _ Wk Tl) as Tr.
  pose proof (kept_placed _ _ _ Wk (proj1 (leaf_ok pbox super))) as Pl.
  pose proof (kept_box _ _ _ Wk) as Bx. cbn [leaf tbox] in Bx.
  pose proof (ends_quads (tbox t) n (at_regular rel root n Rr An) Nk Wq) as Nq.
  assert (E : Forall2 same (tbox n) (tbox t)).
  { assert (A0 : aligned p (tbox t) (tbox root)) by (rewrite Bx; exact Al).
    destruct (aligned_path (tbox t) N Pos rel root n p Rr A0 Ch An) as (k & Ak).
    destruct k as [|k]; [apply aligned0; exact Ak|]. exfalso.
    destruct (aligned_contained k _ _ N Pos Ak) as (q & Jq & Cq). rewrite Forall_forall in Nq.
    rewrite (Nq q Jq) in Cq. discriminate. }
  destruct (Qlt_b _ _) eqn:Ev; [exfalso|].
  { apply Qlt_b_iff in Ev. rewrite (volume_eq _ _ E) in Ev. pose proof (volume_pos _ Pos) as Vp.
    set (v := volume (tbox t)) in *. set (z := (2 ^ Z.of_nat (length (tbox t)))%Z) in *.
    assert (1 <= z)%Z by (unfold z; change 1%Z with (2 ^ 0)%Z; apply Z.pow_le_mono_r; lia).
    assert (Hz : 1 <= inject_Z z) by (change 1 with (inject_Z 1); rewrite <- Zle_Qle; assumption).
    assert (Hz1 : 1 <= (inject_Z z + 1) / 2) by (apply Qle_shift_div_l; lra).
    apply (Qmult_le_r _ _ v Vp) in Hz1. lra. }
  injection H as <-. set (f := fun n : tree => Node (tbox n) (tlist t) (tkids t)).
  assert (Ff : forall m, tbox (f m) = tbox m) by reflexivity.
  assert (Ef : elems (f n) = elems t) by (unfold f; destruct t; reflexivity).
  assert (Er : elems root = []) by (rewrite (kept_elems _ _ _ Wk); reflexivity).
  assert (En : elems n = []).
  { pose proof (at_elems rel root n An) as Inc. rewrite Er in Inc. apply incl_l_nil in Inc. exact Inc. }
  pose proof (replace_tbox rel f root Ff) as Bt.
  split; [constructor|].
  - pose proof (replace_perm rel f root n An) as Pm. rewrite En, Er, Ef, app_nil_r in Pm. exact Pm.
  - eapply replace_placed; [exact Ff|exact Pl|exact An| |].
    + unfold f. apply placed_node. split.
      * change (forall e, In e (elems (f n)) -> contains (tbox n) (pbox (prim e)) = true). rewrite Ef. intros e J.
        rewrite (contains_eq _ _ _ E). eapply placed_in; eauto.
      * destruct t as [b l ks]. apply placed_node in P. apply P.
    + rewrite Ef. intros e J. eapply chain_mono; [|exact Ch]. eapply placed_in; eauto.
  - eapply replace_regular; [exact Ff|exact Rr|exact An|]. unfold f. destruct t as [b l ks]. apply regular_node in R as (Q & Rk).
    apply regular_node. split; [|exact Rk]. cbn [tkids]. destruct Q as [->|Q]; [left; reflexivity|right].
    cbn [tbox] in E. apply split_eq, (Forall2_sym' _ (Forall2 same)) in E; [|intros; apply box_eq_sym; assumption].
    eapply Forall2_trans'; [|exact Q|exact E]. cbn beta. intros x y z. apply box_eq_trans.
  - rewrite Bt, Bx. apply empty_false_iff. eapply aligned_solid; eauto.
  - rewrite Bt, Bx. exact Cs.
  - intros T. eapply replace_tight; [exact Tr|exact An|]. unfold f. destruct t as [b l ks]. apply tight_node in T as (T & Tk).
    apply tight_node. cbn [tlist tkids]. split; [|exact Tk]. intros e q J Jq. cbn [tbox] in E.
    pose proof (quads_same b (tbox n) (pbox (prim e)) (box_eq_sym _ _ E)) as Qs.
    rewrite !Forall_forall in Qs. apply Qs; [|exact Jq]. intros q' Jq'. apply T; assumption.
  - rewrite Bt, Bx. exact Cn.
Qed.

(** ** Moving elements down *)

Lemma drop_nth_perm {A} (l : list A) i a : nth_error l i = Some a -> Permutation l (a :: drop_nth i l).
Proof.
  intros H. destruct (upd_split l i a a H) as (l1 & l2 & -> & _ & Ln). unfold drop_nth. subst i.
  rewrite firstn_app, Nat.sub_diag, firstn_all. cbn [firstn]. rewrite app_nil_r.
  replace (S (length l1)) with (length (l1 ++ [a])) by (rewrite app_length; cbn; lia).
  replace (l1 ++ a :: l2) with ((l1 ++ [a]) ++ l2) by (rewrite <- app_assoc; reflexivity).
  rewrite skipn_app, skipn_all, Nat.sub_diag. cbn [skipn app]. rewrite <- app_assoc.
  apply Permutation_sym, Permutation_middle.
Qed.

Lemma drop_incl {A} (l : list A) i : incl (drop_nth i l) l.
Proof.
  unfold drop_nth. apply incl_app.
  - intros x J. rewrite <- (firstn_skipn i l). apply in_app_iff. auto.
  - intros x J. rewrite <- (firstn_skipn (S i) l). apply in_app_iff. auto.
Qed.

Lemma remove_ok cur i t c e : placed t -> regular t -> at_path cur t = Some c -> nth_error (tlist c) i = Some e ->
  placed (replace cur (remove_at i) t) /\ regular (replace cur (remove_at i) t) /\
  Permutation (e :: elems (replace cur (remove_at i) t)) (elems t).
Proof.
  intros P R A E. assert (Inc : incl (elems (remove_at i c)) (elems c)).
  { destruct c as [b l ks]. unfold remove_at. cbn [elems tbox tlist tkids]. intros x J. apply in_app_iff in J. apply in_app_iff.
    destruct J as [J|J]; [left; eapply drop_incl; eauto|right; exact J]. }
  pose proof (at_placed pbox cur t c P A) as Pc. pose proof (at_regular cur t c R A) as Rc.
  split; [|split].
  - eapply replace_placed; [reflexivity|exact P|exact A| |].
    + destruct c as [b l ks]. unfold remove_at in *. cbn [tbox tlist tkids] in *. apply placed_node.
      split; [|apply placed_node in Pc; apply Pc]. intros x J. apply Inc in J. apply (placed_in _ _ Pc _ J).
    + intros x J. apply Inc in J. eapply placed_chain; eauto.
  - eapply replace_regular; [reflexivity|exact R|exact A|]. destruct c as [b l ks]. exact Rc.
  - pose proof (replace_perm cur (remove_at i) t c A) as Pm.
    assert (Pe : Permutation (elems c) (e :: elems (remove_at i c))).
    { destruct c as [b l ks]. unfold remove_at. cbn [elems tbox tlist tkids] in *.
      change (e :: drop_nth i l ++ flat_map elems ks) with ((e :: drop_nth i l) ++ flat_map elems ks).
      apply Permutation_app_tail, drop_nth_perm. exact E. }
    rewrite Pe in Pm. rewrite <- Permutation_middle in Pm.
    change (e :: elems (replace cur (remove_at i) t) ++ elems (remove_at i c))
      with ((e :: elems (replace cur (remove_at i) t)) ++ elems (remove_at i c)) in Pm.
    apply Permutation_app_inv_r in Pm. exact Pm.
Qed.

Lemma push_ok e p t n : placed t -> regular t -> chain (pbox (prim e)) p t -> at_path p t = Some n ->
  placed (replace p (push e) t) /\ regular (replace p (push e) t) /\
  Permutation (elems (replace p (push e) t)) (e :: elems t).
Proof.
  intros P R C A. pose proof (at_placed pbox p t n P A) as Pn. pose proof (at_regular p t n R A) as Rn.
  destruct (chain_at _ _ _ C) as (n' & A' & Cn). assert (n' = n) by congruence. subst n'.
  split; [|split].
  - eapply replace_placed; [reflexivity|exact P|exact A| |].
    + destruct n as [b l ks]. unfold push. cbn [tbox tlist tkids] in *. pose proof Pn as Pn0. apply placed_node in Pn as (Pn & Pk). apply placed_node.
      split; [|exact Pk]. intros x [<-|J]; [exact Cn|]. apply Pn. exact J.
    + intros x J. destruct n as [b l ks]. unfold push in J. cbn [elems tbox tlist tkids app] in J.
      destruct J as [<-|J]; [exact C|]. eapply placed_chain; eauto.
  - eapply replace_regular; [reflexivity|exact R|exact A|]. destruct n. exact Rn.
  - pose proof (replace_perm p (push e) t n A) as Pm. replace (elems (push e n)) with (e :: elems n) in Pm by (destruct n; reflexivity).
    rewrite <- Permutation_middle in Pm. change (e :: elems t ++ elems n) with ((e :: elems t) ++ elems n) in Pm.
    apply Permutation_app_inv_r in Pm. exact Pm.
Qed.

Lemma relocate_ok fs : forall fuel r i t t', placed t -> regular t ->
  relocate pbox fuel fs (fs ++ r) i t = Ok t' ->
  placed t' /\ regular t' /\ Permutation (contents t') (contents t) /\ tbox t' = tbox t.
Proof.
  induction fuel as [|fuel IH]; intros r i t t' P R H; [discriminate|]. cbn [relocate] in H.
  destruct (at_path (fs ++ r) t) as [c|] eqn:Ac; [|discriminate].
  destruct (nth_error (tlist c) i) as [e|] eqn:Ee; [|injection H as <-; auto].
  destruct (forced e); [|eauto].
  destruct (at_path fs t) as [f|] eqn:Af; [|discriminate].
  destruct (visit (S fuel) false (-1) (pbox (prim e)) 0 [] f nothing) as [[f' st]| |] eqn:Ev; cbn [bind] in H; try discriminate.
  apply (visit_ok pbox) in Ev. destruct Ev as [(_ & _ & ->)|(_ & W)]; [cbn [nothing tree_node] in H; discriminate H|].
  destruct W as [_ (rel & Wn & (Ch & _) & _) _ Wp _]. destruct (Wp eq_refl) as (-> & _). cbn [app] in Wn. rewrite Wn in H.
  destruct rel as [|j rel]; [eauto|]. set (rl := j :: rel) in *.
  assert (Je : In e (elems c)).
  { destruct c as [b l ks]. cbn [tlist elems] in *. apply in_app_iff. left. eapply nth_error_In; eauto. }
  assert (Jf : In e (elems f)).
  { rewrite at_app, Af in Ac. eapply at_elems; eauto. }
  assert (Cf : chain (pbox (prim e)) (fs ++ rl) t).
  { eapply chain_app; [exact Af| |exact Ch]. eapply placed_chain; eauto. }
  destruct (remove_ok (fs ++ r) i t c e P R Ac Ee) as (P1 & R1 & M1).
  set (t1 := replace (fs ++ r) (remove_at i) t) in *.
  assert (C1 : chain (pbox (prim e)) (fs ++ rl) t1) by (apply replace_chain; auto).
  destruct (at_path (fs ++ rl) t) as [n|] eqn:An; [|discriminate].
  destruct (chain_at _ _ _ C1) as (n1 & An1 & _).
  set (fl := is_nil (tkids n) && _) in H.
  destruct (push_ok (Elem (prim e) fl) (fs ++ rl) t1 n1 P1 R1 C1 An1) as (P2 & R2 & M2).
  set (t2 := replace (fs ++ rl) (push (Elem (prim e) fl)) t1) in *.
  destruct (IH rl 1%nat t2 t' P2 R2 H) as (P3 & R3 & M3 & B3).
  split; [exact P3|]. split; [exact R3|]. split.
  - rewrite M3. unfold contents. rewrite M2, <- M1. apply Permutation_refl.
  - rewrite B3. unfold t2, t1. rewrite !replace_tbox by reflexivity. reflexivity.
Qed.

(** No element was stopped by a level limit. *)
Definition free (t : tree) : Prop := Forall (fun e => forced e = false) (elems t).

Lemma relocate_free fs cur t : free t -> forall fuel i t', relocate pbox fuel fs cur i t = Ok t' -> t' = t.
Proof.
  intros F. induction fuel as [|fuel IH]; intros i t' H; [discriminate|]. cbn [relocate] in H.
  destruct (at_path cur t) as [c|] eqn:Ac; [|discriminate].
  destruct (nth_error (tlist c) i) as [e|] eqn:Ee; [|congruence].
  assert (Je : In e (elems t)).
  { apply (at_elems cur t c Ac). destruct c as [b l ks]. cbn [tlist elems] in *. apply in_app_iff. left. eapply nth_error_In; eauto. }
  unfold free in F. rewrite Forall_forall in F. rewrite (F e Je) in H. eauto.
Qed.

Lemma relocate_free_ok fs cur t c : free t -> at_path cur t = Some c -> forall fuel i,
  (i <= length (tlist c) < i + fuel)%nat -> relocate pbox fuel fs cur i t = Ok t.
Proof.
  intros F A. induction fuel as [|fuel IH]; intros i L; [lia|]. cbn [relocate]. rewrite A.
  destruct (nth_error (tlist c) i) as [e|] eqn:Ee; [|reflexivity].
  assert (Je : In e (elems t)).
  { apply (at_elems cur t c A). destruct c as [b l ks]. cbn [tlist elems] in *. apply in_app_iff. left. eapply nth_error_In; eauto. }
  unfold free in F. rewrite Forall_forall in F. rewrite (F e Je).
  assert (i < length (tlist c))%nat by (apply nth_error_Some; congruence). apply IH. lia.
Qed.

(** ** Adding *)

Lemma add_ok fuel t x lim t' : placed t -> regular t -> proper (tbox t) -> add pbox fuel t x lim = Ok t' ->
  placed t' /\ regular t' /\ proper (tbox t') /\ Permutation (contents t') (x :: contents t).
Proof.
  intros P R Pr H. unfold add in H.
  destruct (negb (is_nil (tbox t)) && _) eqn:El; [discriminate|].
  destruct (if contains (tbox t) (pbox x) then Ok t else _) as [t1| |] eqn:E1; cbn [bind] in H; try discriminate.
  destruct (visit fuel true lim (pbox x) 0 [] t1 nothing) as [[t2 st]| |] eqn:Ev; cbn [bind] in H; try discriminate.
  apply (visit_ok pbox) in Ev. destruct Ev as [(_ & _ & ->)|(C1 & W)]; [cbn [nothing tree_node] in H; discriminate H|].
  assert (G : placed t1 /\ regular t1 /\ proper (tbox t1) /\ Permutation (elems t1) (elems t)).
  { destruct (contains (tbox t) (pbox x)) eqn:C; [injection E1 as <-; auto|].
    assert (N : tbox t <> []).
    { intros E. rewrite E in *. unfold grow_root in E1. rewrite E in E1. unfold grow_bbox_on_grid in E1.
      destruct (empty (pbox x)); cbn [bind] in E1; [|discriminate].
      destruct fuel; discriminate. }
    assert (L : length (tbox t) = length (pbox x)).
    { destruct (tbox t); [congruence|]. cbn [is_nil negb andb] in El. apply negb_false_iff, Nat.eqb_eq in El. exact El. }
    destruct (grow_root_ok fuel t (pbox x) t1 P R Pr N L E1) as ([] & _). repeat split; auto.
    destruct g_solid0 as (_ & S0). eapply Forall_impl; [|exact S0]. cbn beta. intros; lra. }
  destruct G as (P1 & R1 & Pr1 & M1).
  destruct W as [Wk (rel & Wn & (Ch & n & An & _) & _) Ws _ _]. cbn [app] in Wn. rewrite Wn in H.
  destruct (push_ok (Elem x (forced_level st)) rel t2 n (kept_placed _ _ _ Wk P1) (kept_regular _ _ _ Wk R1) Ch An) as (P3 & R3 & M3).
  assert (B3 : tbox (replace rel (push (Elem x (forced_level st))) t2) = tbox t1).
  { rewrite replace_tbox by reflexivity. apply (kept_box _ _ _ Wk). }
  set (t3 := replace rel _ t2) in *.
  assert (M : Permutation (contents t3) (x :: contents t)).
  { unfold contents. rewrite M3. cbn [map prim]. rewrite (kept_elems _ _ _ Wk), M1. apply Permutation_refl. }
  destruct (first_split st) as [fs|] eqn:Ef.
  - replace fs with (fs ++ []) in H at 2 by apply app_nil_r.
    destruct (relocate_ok fs fuel [] 0 t3 t' P3 R3 H) as (P4 & R4 & M4 & B4).
    rewrite B4, B3. split; [exact P4|]. split; [exact R4|]. split; [exact Pr1|]. rewrite M4. exact M.
  - injection H as <-. rewrite B3. auto.
Qed.

Lemma built_ok t xs : built pbox t xs -> placed t /\ regular t /\ proper (tbox t) /\ Permutation (contents t) xs.
Proof.
  induction 1 as [b Pr|t xs fuel x lim t' B (P & R & Pr & M) A].
  - destruct (leaf_ok pbox b) as (P & R & _). split; [exact P|]. split; [exact R|]. split; [exact Pr|constructor].
  - destruct (add_ok _ _ _ _ _ P R Pr A) as (P' & R' & Pr' & M'). repeat split; auto. rewrite M', M. apply Permutation_refl.
Qed.

(** Without level limits. *)
Lemma free_perm t t' : Permutation (elems t') (elems t) -> free t -> free t'.
Proof. intros M F. unfold free in *. eapply Permutation_Forall; [apply Permutation_sym; exact M|exact F]. Qed.

Lemma add_free fuel t x t' : placed t -> regular t -> proper (tbox t) -> tight t -> free t ->
  add pbox fuel t x (-1) = Ok t' -> tight t' /\ free t'.
Proof.
  intros P R Pr T F H. unfold add in H.
  destruct (negb (is_nil (tbox t)) && _) eqn:El; [discriminate|].
  destruct (if contains (tbox t) (pbox x) then Ok t else _) as [t1| |] eqn:E1; cbn [bind] in H; try discriminate.
  destruct (visit fuel true (-1) (pbox x) 0 [] t1 nothing) as [[t2 st]| |] eqn:Ev; cbn [bind] in H; try discriminate.
  apply (visit_ok pbox) in Ev. destruct Ev as [(_ & _ & ->)|(C1 & W)]; [cbn [nothing tree_node] in H; discriminate H|].
  assert (G : placed t1 /\ regular t1 /\ tight t1 /\ Permutation (elems t1) (elems t)).
  { destruct (contains (tbox t) (pbox x)) eqn:C; [injection E1 as <-; auto|].
    assert (N : tbox t <> []).
    { intros E. rewrite E in *. unfold grow_root in E1. rewrite E in E1. unfold grow_bbox_on_grid in E1.
      destruct (empty (pbox x)); cbn [bind] in E1; [|discriminate].
      destruct fuel; discriminate. }
    assert (L : length (tbox t) = length (pbox x)).
    { destruct (tbox t); [congruence|]. cbn [is_nil negb andb] in El. apply negb_false_iff, Nat.eqb_eq in El. exact El. }
    destruct (grow_root_ok fuel t (pbox x) t1 P R Pr N L E1) as ([] & _). repeat split; auto. }
  destruct G as (P1 & R1 & T1 & M1).
  destruct W as [Wk (rel & Wn & (Ch & n & An & Nk) & Wq) Ws _ Wf]. cbn [app] in Wn. rewrite Wn in H.
  rewrite (Wf eq_refl) in H. cbn [nothing forced_level] in H.
  pose proof (kept_placed _ _ _ Wk P1) as P2. pose proof (kept_regular _ _ _ Wk R1) as R2. pose proof (kept_tight _ _ _ Wk T1) as T2.
  destruct (push_ok (Elem x false) rel t2 n P2 R2 Ch An) as (P3 & R3 & M3).
  pose proof (ends_quads (pbox x) n (at_regular rel t2 n R2 An) Nk (Wq eq_refl eq_refl n An)) as Nq.
  assert (T3 : tight (replace rel (push (Elem x false)) t2)).
  { eapply replace_tight; [exact T2|exact An|].
    assert (Tn : tight n).
    { clear - T2 An. revert t2 T2 An. induction rel as [|i p IH]; intros t T A; cbn [at_path] in A; [congruence|].
      destruct (nth_error (tkids t) i) as [k|] eqn:E; [|discriminate]. eapply IH; [|exact A].
      destruct t as [b l ks]. apply tight_node in T as (_ & Pk). rewrite Forall_forall in Pk. apply Pk. eapply nth_error_In; eauto. }
    destruct n as [b l ks]. unfold push. cbn [tbox tlist tkids] in *. apply tight_node in Tn as (Tn & Tk). apply tight_node.
    split; [|exact Tk]. rewrite Forall_forall in Nq. intros e q [<-|J] Jq; [apply Nq; exact Jq|apply Tn; assumption]. }
  set (t3 := replace rel _ t2) in *.
  assert (F3 : free t3).
  { eapply Permutation_Forall; [apply Permutation_sym; exact M3|]. constructor; [reflexivity|].
    rewrite (kept_elems _ _ _ Wk). eapply free_perm; eauto. }
  destruct (first_split st) as [fs|] eqn:Ef.
  - apply relocate_free in H; [|exact F3]. subst t'. auto.
  - injection H as <-. auto.
Qed.

Lemma built_free_built t xs : built_free pbox t xs -> built pbox t xs.
Proof. induction 1; [constructor; assumption|econstructor; eassumption]. Qed.

Lemma built_free_ok t xs : built_free pbox t xs -> tight t /\ free t.
Proof.
  induction 1 as [b Pr|t xs fuel x t' B (T & F) A].
  - split; [apply leaf_ok|constructor].
  - destruct (built_ok _ _ (built_free_built _ _ B)) as (P & R & Pr & _). eapply add_free; eauto.
Qed.
End Insert.
