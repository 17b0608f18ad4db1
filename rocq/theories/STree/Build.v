(** Spatial trees: how insertion changes them. *)
From Verif Require Import Lib.Base Lib.Lists STree.Model STree.Spec STree.Geom STree.Grid STree.Proofs.
From Coq Require Import List Arith Bool ZArith QArith Lqa Lia Permutation.
Import ListNotations.

Section Build.
Context (pbox : nat -> box).
Notation placed := (placed pbox).

(** ** Paths *)

(** All boxes on the path contain [bb]. *)
Fixpoint chain (bb : box) (path : list nat) (t : tree) : Prop :=
  contains (tbox t) bb = true /\
  match path with
  | [] => True
  | i :: p => exists k, nth_error (tkids t) i = Some k /\ chain bb p k
  end.

Lemma chain_at bb path : forall t, chain bb path t -> exists n, at_path path t = Some n /\ contains (tbox n) bb = true.
Proof.
  induction path as [|i p IH]; intros t; cbn [chain at_path].
  - intros (C & _). eauto.
  - intros (_ & k & -> & C). apply IH. exact C.
Qed.

Lemma chain_app bb p q : forall t n, at_path p t = Some n -> chain bb p t -> chain bb q n -> chain bb (p ++ q) t.
Proof.
  induction p as [|i p IH]; intros t n A C D; cbn [app at_path chain] in *.
  - injection A as ->. exact D.
  - destruct C as (C & k & E & Ck). rewrite E in A. split; [exact C|]. exists k. split; [exact E|]. eapply IH; eauto.
Qed.

Lemma at_app p q : forall t, at_path (p ++ q) t = match at_path p t with Some n => at_path q n | None => None end.
Proof.
  induction p as [|i p IH]; intros t; cbn [app at_path]; [reflexivity|].
  destruct (nth_error (tkids t) i); [apply IH|reflexivity].
Qed.

Lemma at_elems p : forall t n, at_path p t = Some n -> incl (elems n) (elems t).
Proof.
  induction p as [|i p IH]; intros t n; cbn [at_path].
  - intros [= ->]. apply incl_refl.
  - destruct (nth_error (tkids t) i) as [k|] eqn:E; [|discriminate]. intros A e J. destruct t as [b l ks].
    cbn [elems tkids] in *. apply in_app_iff. right. apply in_flat_map. exists k.
    split; [eapply nth_error_In; eauto|]. eapply IH; eauto.
Qed.

Lemma placed_chain p : forall t n e, placed t -> at_path p t = Some n -> In e (elems n) -> chain (pbox (prim e)) p t.
Proof.
  induction p as [|i p IH]; intros t n e P A J; cbn [chain at_path] in *.
  - injection A as ->. split; [|exact I]. eapply placed_in; eauto.
  - destruct (nth_error (tkids t) i) as [k|] eqn:E; [|discriminate]. split.
    + eapply placed_in; [exact P|]. apply (at_elems (i :: p) t n); [cbn [at_path]; rewrite E; exact A|exact J].
    + exists k. split; [reflexivity|]. eapply IH; eauto. destruct t as [b l ks]. apply placed_node in P as (_ & Pk).
      rewrite Forall_forall in Pk. apply Pk. eapply nth_error_In; eauto.
Qed.

Lemma at_placed p : forall t n, placed t -> at_path p t = Some n -> placed n.
Proof.
  induction p as [|i p IH]; intros t n P A; cbn [at_path] in A; [congruence|].
  destruct (nth_error (tkids t) i) as [k|] eqn:E; [|discriminate]. eapply IH; [|exact A].
  destruct t as [b l ks]. apply placed_node in P as (_ & Pk). rewrite Forall_forall in Pk. apply Pk. eapply nth_error_In; eauto.
Qed.

Lemma at_regular p : forall t n, regular t -> at_path p t = Some n -> regular n.
Proof.
  induction p as [|i p IH]; intros t n P A; cbn [at_path] in A; [congruence|].
  destruct (nth_error (tkids t) i) as [k|] eqn:E; [|discriminate]. eapply IH; [|exact A].
  destruct t as [b l ks]. apply regular_node in P as (_ & Pk). rewrite Forall_forall in Pk. apply Pk. eapply nth_error_In; eauto.
Qed.

(** ** Replacing a node *)

Lemma upd_split {A} (l : list A) i a x : nth_error l i = Some a ->
  exists l1 l2, l = l1 ++ a :: l2 /\ upd l i x = l1 ++ x :: l2 /\ length l1 = i.
Proof.
  revert i. induction l as [|b l IH]; intros [|i] H; try discriminate.
  - injection H as ->. exists [], l. auto.
  - destruct (IH i H) as (l1 & l2 & -> & E & L). exists (b :: l1), l2. cbn [upd app length]. rewrite E. auto.
Qed.

Lemma replace_cons i p f t k : nth_error (tkids t) i = Some k ->
  replace (i :: p) f t = Node (tbox t) (tlist t) (upd (tkids t) i (replace p f k)).
Proof. intros H. cbn [replace]. rewrite H. reflexivity. Qed.

Lemma replace_tbox p f t : (forall n, tbox (f n) = tbox n) -> tbox (replace p f t) = tbox t.
Proof.
  intros F. destruct p as [|i p]; cbn [replace]; [apply F|]. destruct (nth_error _ _); reflexivity.
Qed.

Lemma replace_perm p f : forall t n, at_path p t = Some n ->
  Permutation (elems (replace p f t) ++ elems n) (elems t ++ elems (f n)).
Proof.
  induction p as [|i p IH]; intros t n A; cbn [at_path] in A.
  - injection A as ->. cbn [replace]. apply Permutation_app_comm.
  - destruct (nth_error (tkids t) i) as [k|] eqn:E; [|discriminate]. rewrite (replace_cons i p f t k E).
    destruct t as [b l ks]. cbn [tkids tbox tlist elems] in *.
    destruct (upd_split ks i k (replace p f k) E) as (l1 & l2 & -> & U & _). rewrite U.
    rewrite !flat_map_app. cbn [flat_map]. rewrite <- !app_assoc. do 2 apply Permutation_app_head.
    rewrite (Permutation_app_comm (flat_map elems l2) (elems n)), (Permutation_app_comm (flat_map elems l2) (elems (f n))).
    rewrite !app_assoc. apply Permutation_app_tail. apply IH. exact A.
Qed.

Lemma replace_in p f t n e : at_path p t = Some n -> In e (elems (replace p f t)) -> In e (elems t) \/ In e (elems (f n)).
Proof.
  intros A J. apply in_app_iff. eapply Permutation_in; [apply (replace_perm p f t n A)|]. apply in_app_iff. auto.
Qed.

Lemma Forall_upd {A} (P : A -> Prop) l i x : Forall P l -> P x -> Forall P (upd l i x).
Proof.
  intros H Px. revert i. induction H; intros [|i]; cbn [upd]; constructor; auto.
Qed.

Lemma replace_placed p f : (forall n, tbox (f n) = tbox n) -> forall t n, placed t -> at_path p t = Some n ->
  placed (f n) -> (forall e, In e (elems (f n)) -> chain (pbox (prim e)) p t) -> placed (replace p f t).
Proof.
  intros F. induction p as [|i p IH]; intros t n P A Pf C.
  - cbn [at_path] in A. injection A as ->. exact Pf.
  - pose proof (replace_in (i :: p) f t n) as In'. specialize (fun e => In' e A). cbn [at_path] in A.
    destruct (nth_error (tkids t) i) as [k|] eqn:E; [|discriminate].
    rewrite (replace_cons i p f t k E) in *. apply placed_node. split.
    + intros e J. destruct (In' e J) as [K|K]; [eapply placed_in; eauto|]. apply C in K. apply K.
    + destruct t as [b l ks]. cbn [tkids] in *. apply placed_node in P as (_ & Pk).
      apply Forall_upd; [exact Pk|]. eapply IH; eauto.
      * rewrite Forall_forall in Pk. apply Pk. eapply nth_error_In; eauto.
      * intros e J. apply C in J. cbn [chain tkids] in J. destruct J as (_ & k' & E' & Ck). congruence.
Qed.

Lemma replace_regular p f : (forall n, tbox (f n) = tbox n) -> forall t n, regular t -> at_path p t = Some n ->
  regular (f n) -> regular (replace p f t).
Proof.
  intros F. induction p as [|i p IH]; intros t n P A Pf; cbn [at_path] in A.
  - injection A as ->. exact Pf.
  - destruct (nth_error (tkids t) i) as [k|] eqn:E; [|discriminate].
    rewrite (replace_cons i p f t k E). destruct t as [b l ks]. cbn [tkids tbox tlist] in *.
    apply regular_node in P as (S1 & Rk). apply regular_node. split.
    + right. destruct S1 as [->|S1]; [destruct i; discriminate|].
      replace (map tbox (upd ks i (replace p f k))) with (map tbox ks); [exact S1|].
      destruct (upd_split ks i k (replace p f k) E) as (l1 & l2 & -> & U & _). rewrite U, !map_app. cbn [map].
      rewrite (replace_tbox p f k F). reflexivity.
    + apply Forall_upd; [exact Rk|]. eapply IH; eauto. rewrite Forall_forall in Rk. apply Rk. eapply nth_error_In; eauto.
Qed.

Lemma nth_upd {A} (l : list A) i j x : nth_error (upd l i x) j = if Nat.eqb i j then (if j <? length l then Some x else None)%nat else nth_error l j.
Proof.
  revert i j. induction l as [|a l IH]; intros [|i] [|j]; cbn [upd nth_error length Nat.eqb]; try reflexivity.
  - destruct (Nat.eqb i j); reflexivity.
  - rewrite IH. reflexivity.
Qed.

(** A replacement that keeps the box and the children keeps the shape. *)
Lemma replace_chain bb f : (forall n, tbox (f n) = tbox n) -> (forall n, tkids (f n) = tkids n) ->
  forall p q t, chain bb q t -> chain bb q (replace p f t).
Proof.
  intros F G. induction p as [|i p IH]; intros q t C.
  - cbn [replace]. destruct q as [|j q]; cbn [chain] in *; rewrite F; [exact C|]. rewrite G. exact C.
  - cbn [replace]. destruct (nth_error (tkids t) i) as [k|] eqn:E; [|exact C].
    destruct q as [|j q]; cbn [chain tbox tkids] in *; [exact C|]. destruct C as (C & k' & E' & Ck).
    split; [exact C|]. rewrite nth_upd. destruct (Nat.eqb_spec i j) as [Hij|Hij].
    + subst j. assert (i < length (tkids t))%nat by (apply nth_error_Some; congruence).
      destruct (Nat.ltb_spec i (length (tkids t))); [|lia]. exists (replace p f k). split; [reflexivity|].
      apply IH. congruence.
    + exists k'. auto.
Qed.

(** ** The lists of the nodes do not change *)

(** No element fits in a quadrant of the box of its node. *)
Fixpoint tight (t : tree) : Prop :=
  match t with Node b l ks =>
    (forall e q, In e l -> In q (split_bbox b) -> contains q (pbox (prim e)) = false) /\
    fold_right (fun k P => tight k /\ P) True ks
  end.

Lemma tight_node b l ks : tight (Node b l ks) <->
  (forall e q, In e l -> In q (split_bbox b) -> contains q (pbox (prim e)) = false) /\ Forall tight ks.
Proof. cbn [tight]. rewrite fold_and. reflexivity. Qed.

(** ** Visiting *)

(** What a visit may do to a tree. *)
Record kept (t t' : tree) : Prop := Kept {
  kept_box : tbox t' = tbox t;
  kept_elems : elems t' = elems t;
  kept_placed : placed t -> placed t';
  kept_regular : regular t -> regular t';
  kept_tight : tight t -> tight t'
}.

Lemma kept_refl t : kept t t.
Proof. constructor; auto. Qed.

Lemma kept_kids b l ks ks' : Forall2 kept ks ks' -> kept (Node b l ks) (Node b l ks').
Proof.
  intros K.
  assert (E : flat_map elems ks' = flat_map elems ks).
  { induction K as [|k k' ks ks' H _ IH]; [reflexivity|]. cbn [flat_map]. rewrite IH, (kept_elems _ _ H). reflexivity. }
  constructor.
  - reflexivity.
  - cbn [elems]. rewrite E. reflexivity.
  - rewrite !placed_node. cbn [elems]. rewrite E. intros (P & Pk). split; [exact P|].
    clear - K Pk. induction K as [|k k' ks ks' H _ IH]; inversion Pk; subst; constructor; auto. apply H. assumption.
  - rewrite !regular_node. intros (S1 & Pk). split.
    + replace (map tbox ks') with (map tbox ks).
      * destruct S1 as [->|S1]; [left; inversion K; reflexivity|auto].
      * clear - K. induction K as [|k k' ks ks' H _ IH]; [reflexivity|]. cbn [map]. rewrite IH, (kept_box _ _ H). reflexivity.
    + clear - K Pk. induction K as [|k k' ks ks' H _ IH]; inversion Pk; subst; constructor; auto. apply H. assumption.
  - rewrite !tight_node. intros (T & Pk). split; [exact T|].
    clear - K Pk. induction K as [|k k' ks ks' H _ IH]; inversion Pk; subst; constructor; auto. apply H. assumption.
Qed.

Lemma kept_trans a b c : kept a b -> kept b c -> kept a c.
Proof. intros [] []. constructor; try congruence; auto. Qed.

Lemma leaf_ok b : placed (leaf b) /\ regular (leaf b) /\ tight (leaf b).
Proof.
  unfold leaf. rewrite placed_node, regular_node, tight_node. cbn [elems flat_map app].
  split; [split; [intros ? []|constructor]|]. split; [split; [left; reflexivity|constructor]|].
  split; [intros ? ? []|constructor].
Qed.

Lemma kept_split b l : kept (Node b l []) (Node b l (map leaf (split_bbox b))).
Proof.
  assert (E : forall qs, flat_map elems (map leaf qs) = []) by (induction qs; auto).
  assert (A : forall (P : tree -> Prop) qs, (forall q, P (leaf q)) -> Forall P (map leaf qs)).
  { intros P qs H. apply Forall_forall. intros k J. apply in_map_iff in J as (q & <- & _). apply H. }
  constructor.
  - reflexivity.
  - cbn [elems]. rewrite E. reflexivity.
  - rewrite !placed_node. cbn [elems]. rewrite E. intros (P & _). split; [exact P|]. apply A. apply leaf_ok.
  - rewrite !regular_node. intros _. split; [|apply A; apply leaf_ok]. right. rewrite map_map. cbn [tbox leaf].
    rewrite map_id. induction (split_bbox b); constructor; auto. apply box_eq_refl.
  - rewrite !tight_node. intros (T & _). split; [exact T|]. apply A. apply leaf_ok.
Qed.

(** Where the search ends: a path whose boxes contain [bb], to a node no child
    of which contains it. *)
Definition ends (bb : box) (rel : list nat) (t : tree) : Prop :=
  chain bb rel t /\
  exists n, at_path rel t = Some n /\ Forall (fun k => contains (tbox k) bb = false) (tkids n).

Record went (create : bool) (bb : box) (mx : Z) (path : list nat) (t t' : tree) (st st' : found) : Prop := Went {
  w_kept : kept t t';
  w_ends : exists rel, tree_node st' = Some (path ++ rel) /\ ends bb rel t' /\
     (create = true -> (mx < 0)%Z -> forall n, at_path rel t' = Some n -> tkids n = [] ->
        Forall (fun q => contains q bb = false) (split_bbox (tbox n)));
  w_split : first_split st' = first_split st \/
     (create = true /\ exists rel, first_split st' = Some (path ++ rel) /\ chain bb rel t');
  w_pure : create = false -> t' = t /\ forced_level st' = forced_level st;
  w_free : (mx < 0)%Z -> forced_level st' = forced_level st
}.

Definition visited create bb mx path t t' st st' : Prop :=
  (contains (tbox t) bb = false /\ t' = t /\ st' = st) \/
  (contains (tbox t) bb = true /\ went create bb mx path t t' st st').

Lemma visit_kids_ok create bb mx f path :
  (forall pa k st k' st', f pa k st = Ok (k', st') -> visited create bb mx pa k k' st st') ->
  forall ks i st ks' st', visit_kids f path i ks st = Ok (ks', st') ->
  Forall2 kept ks ks' /\
  (create = false -> ks' = ks) /\
  ((mx < 0)%Z \/ create = false -> forced_level st' = forced_level st) /\
  (first_split st' = first_split st \/
     create = true /\ exists j k rel, nth_error ks' j = Some k /\ chain bb rel k /\
       first_split st' = Some (path ++ (i + j)%nat :: rel)) /\
  ((tree_node st' = tree_node st /\ Forall (fun k => contains (tbox k) bb = false) ks') \/
   exists j k rel, nth_error ks' j = Some k /\ tree_node st' = Some (path ++ (i + j)%nat :: rel) /\ ends bb rel k /\
     (create = true -> (mx < 0)%Z -> forall n, at_path rel k = Some n -> tkids n = [] ->
        Forall (fun q => contains q bb = false) (split_bbox (tbox n)))).
Proof.
  intros F. induction ks as [|k ks IH]; intros i st ks' st' H; cbn [visit_kids] in H.
  - injection H as <- <-. repeat split; auto.
  - destruct (visit_kids f path (S i) ks st) as [[ks1 st1]| |] eqn:E1; cbn [bind] in H; try discriminate.
    destruct (f (path ++ [i]) k st1) as [[k1 st2]| |] eqn:E2; cbn [bind] in H; try discriminate.
    injection H as <- <-. destruct (IH _ _ _ _ E1) as (K & Pu & Fr & Sp & En).
    apply F in E2. destruct E2 as [(C & -> & ->)|(C & W)].
    + repeat split.
      * constructor; [apply kept_refl|exact K].
      * intros Hc. rewrite Pu by exact Hc. reflexivity.
      * exact Fr.
      * destruct Sp as [Sp|(Hc & j & k' & rel & J & Ch & Sp)]; [left; exact Sp|right].
        split; [exact Hc|]. exists (S j), k', rel. cbn [nth_error]. replace (i + S j)%nat with (S i + j)%nat by lia. auto.
      * destruct En as [(En & N)|(j & k' & rel & J & T & Ed & Hq)]; [left; auto|right].
        exists (S j), k', rel. cbn [nth_error]. replace (i + S j)%nat with (S i + j)%nat by lia. auto.
    + destruct W as [Wk (rel & Wn & We & Wq) Ws Wp Wf]. repeat split.
      * constructor; assumption.
      * intros Hc. rewrite Pu by exact Hc. destruct (Wp Hc) as (-> & _). reflexivity.
      * intros Hc. rewrite <- Fr by exact Hc. destruct Hc as [Hc|Hc]; [auto|]. apply Wp. exact Hc.
      * destruct Ws as [Ws|(Hc & rel' & Ws & Ch)].
        -- rewrite Ws. destruct Sp as [Sp|(Hc & j & k' & rel' & J & Ch & Sp)]; [left; exact Sp|right].
           split; [exact Hc|]. exists (S j), k', rel'. cbn [nth_error]. replace (i + S j)%nat with (S i + j)%nat by lia. auto.
        -- right. split; [exact Hc|]. exists 0%nat, k1, rel'. cbn [nth_error]. rewrite Nat.add_0_r.
           rewrite <- app_assoc in Ws. auto.
      * right. exists 0%nat, k1, rel. cbn [nth_error]. rewrite Nat.add_0_r. rewrite <- app_assoc in Wn. auto.
Qed.

Lemma forall_existsb_false {A} (f : A -> bool) l : existsb f l = false -> Forall (fun a => f a = false) l.
Proof.
  intros H. apply Forall_forall. intros a J. destruct (f a) eqn:E; [|reflexivity].
  assert (existsb f l = true) by (apply existsb_exists; eauto). congruence.
Qed.

Lemma visit_ok create mx bb : forall fuel level path t st t' st',
  visit fuel create mx bb level path t st = Ok (t', st') -> visited create bb mx path t t' st st'.
Proof.
  induction fuel as [|fuel IH]; intros level path t st t' st' H; [discriminate|].
  cbn [visit] in H. destruct t as [b l ks].
  destruct (contains b bb) eqn:C; cbn [negb] in H; [|injection H as <- <-; left; auto].
  right. split; [exact C|].
  set (A := if create && is_nil ks then _ else _) in H.
  destruct A as [ks0 st0] eqn:EA. unfold A in EA. clear A.
  assert (S0 : kept (Node b l ks) (Node b l ks0) /\ (create = false -> ks0 = ks /\ st0 = st) /\
     ((mx < 0)%Z -> forced_level st0 = forced_level st) /\
     (first_split st0 = first_split st \/ create = true /\ first_split st0 = Some path) /\
     (create = true -> (mx < 0)%Z -> ks0 = [] -> Forall (fun q => contains q bb = false) (split_bbox b))).
  { destruct (create && is_nil ks) eqn:Ec.
    - apply andb_true_iff in Ec as (-> & N). destruct ks; [|discriminate].
      destruct ((mx <? 0)%Z || (level <? mx)%Z) eqn:Em.
      + injection EA as <- <-. split; [|split; [discriminate|]].
        * destruct (existsb _ _); [apply kept_split|apply kept_refl].
        * split; [destruct (first_split st); reflexivity|]. split.
          -- destruct (first_split st) eqn:Ef; [left; exact Ef|right; auto].
          -- intros _ _. destruct (existsb (fun q => contains q bb) (split_bbox b)) eqn:Ex.
             ++ destruct (split_bbox b); [intros _; constructor|discriminate].
             ++ intros _. apply forall_existsb_false. exact Ex.
      + apply orb_false_iff in Em as (Em & _). injection EA as <- <-. split; [apply kept_refl|]. split; [discriminate|].
        split; [intros X; apply Z.ltb_ge in Em; lia|]. split; [left; reflexivity|]. intros _ X. apply Z.ltb_ge in Em. lia.
    - injection EA as <- <-. split; [apply kept_refl|]. split; [auto|]. split; [auto|]. split; [auto|].
      intros -> _ ->. discriminate. }
  clear EA. destruct S0 as (K0 & Pu0 & Fr0 & Sp0 & Q0).
  destruct (visit_kids _ path 0 ks0 _) as [[ks1 st1]| |] eqn:EK; cbn [bind] in H; try discriminate.
  injection H as <- <-.
  eapply visit_kids_ok in EK; [|intros; eapply IH; eassumption].
  cbn [tree_node first_split forced_level] in EK. destruct EK as (K & Pu & Fr & Sp & En).
  constructor.
  - eapply kept_trans; [exact K0|]. apply kept_kids. exact K.
  - destruct En as [(En & N)|(j & k & rel & J & T & (Ch & En) & Hq)].
    + exists []. rewrite app_nil_r. split; [exact En|]. split.
      * split; [split; [exact C|exact I]|]. exists (Node b l ks1). split; [reflexivity|exact N].
      * intros Hc Hm n [= <-] Hn. cbn [tkids tbox] in *. subst ks1. inversion K; subst. auto.
    + exists (j :: rel). split; [exact T|]. split.
      * split; [split; [exact C|]; exists k; split; [exact J|exact Ch]|]. cbn [at_path tkids]. rewrite J. exact En.
      * intros Hc Hm n. cbn [at_path tkids]. rewrite J. apply Hq; assumption.
  - destruct Sp as [Sp|(Hc & j & k & rel & J & Ch & Sp)].
    + destruct Sp0 as [Sp0|(Hc & Sp0)]; [left; congruence|]. right. split; [exact Hc|].
      exists []. rewrite app_nil_r. split; [congruence|]. split; [exact C|exact I].
    + right. split; [exact Hc|]. exists (j :: rel). split; [exact Sp|]. split; [exact C|]. exists k. auto.
  - intros Hc. destruct (Pu0 Hc) as (-> & ->). rewrite (Pu Hc). split; [reflexivity|]. apply Fr. auto.
  - intros Hm. rewrite Fr by auto. auto.
Qed.
End Build.
