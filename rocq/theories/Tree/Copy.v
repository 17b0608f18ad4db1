(** Cloning and recursive deletion. *)
From Verif Require Import Lib.Base Lib.Lists Tree.Model Tree.Spec Tree.Proofs Tree.Trees.
From Coq Require Import List Arith Bool ZArith Lia.
Import ListNotations.
Open Scope nat_scope.

Section Copy.
Context {D : Type}.
Implicit Type h : heap D.

Notation none := (fun _ : nat => False).

(** [t] is a tree of the child lists [K]. *)
Fixpoint kt (K : nat -> list nat) (t : tree) : Prop :=
  match t with
  | T n ts => K n = map tid ts /\ fold_right (fun t P => kt K t /\ P) True ts
  end.

Definition kts K ts : Prop := fold_right (fun t P => kt K t /\ P) True ts.

Lemma kt_ext K K' t : (forall q, In q (ids t) -> K' q = K q) -> kt K t -> kt K' t.
Proof.
  induction t as [n ts IH] using tree_ind'. cbn [kt ids]. intros E (H & Hs).
  split; [rewrite E by (left; reflexivity); exact H|].
  assert (E' : forall q, In q (flat_map ids ts) -> K' q = K q) by (intros q I; apply E; right; exact I).
  clear E H. induction IH as [|t ts Ht _ IH]; [exact I|]. cbn [fold_right flat_map] in *.
  destruct Hs as (H1 & H2). split.
  - apply Ht; [|exact H1]. intros q I. apply E', in_or_app. auto.
  - apply IH; [exact H2|]. intros q I. apply E', in_or_app. auto.
Qed.

Lemma kts_ext K K' ts : (forall q, In q (flat_map ids ts) -> K' q = K q) -> kts K ts -> kts K' ts.
Proof.
  induction ts as [|t ts IH]; intros E H; [exact I|].
  cbn [kts fold_right flat_map] in *. destruct H as (H1 & H2). split.
  - eapply kt_ext; [|exact H1]. intros q J. apply E, in_or_app. auto.
  - apply IH; [|exact H2]. intros q J. apply E, in_or_app. auto.
Qed.

Lemma kt_tree_at X h K t : inv X h K -> kt K t -> (forall q, In q (ids t) -> exists nd, lk h q = Some nd) ->
  tree_at h (tid t) t.
Proof.
  intros V. induction t as [n ts IH] using tree_ind'. intros (H & Hs) L.
  destruct (L n) as (nd & Ln); [left; reflexivity|].
  cbn [tid]. apply (tree_at_node h n (map tid ts)).
  - rewrite (inv_children _ h K n nd V Ln), H. reflexivity.
  - assert (L' : forall q, In q (flat_map ids ts) -> exists nd, lk h q = Some nd)
      by (intros q I; apply L; right; exact I).
    clear L H Ln. induction IH as [|t ts Ht _ IH]; [constructor|]. cbn [fold_right flat_map map] in *.
    destruct Hs as (H1 & H2). constructor.
    + apply Ht; [exact H1|]. intros q I. apply L', in_or_app. auto.
    + apply IH; [exact H2|]. intros q I. apply L', in_or_app. auto.
Qed.

Lemma tree_at_kt X h K t : inv X h K -> forall n, tree_at h n t ->
  tid t = n /\ kt K t /\ forall q, In q (ids t) -> exists nd, lk h q = Some nd.
Proof.
  intros V. induction t as [n' ts IH] using tree_ind'. intros n Ht.
  apply tree_at_inv in Ht as (-> & cs & C & Ts). split; [reflexivity|].
  pose proof C as C'. apply children_inv in C' as (nd & L & _).
  rewrite (inv_children _ h K n nd V L) in C. injection C as <-.
  pose proof (eq_sym (trees_at_ids h _ ts Ts)) as X1. cbn [kt ids].
  apply trees_at_forall2 in Ts.
  assert (X2 : fold_right (fun t P => kt K t /\ P) True ts /\
               forall q, In q (flat_map ids ts) -> exists nd, lk h q = Some nd).
  { clear - IH Ts. revert IH. induction Ts as [|c t cs ts Ht _ IHl]; intros IH; cbn [fold_right flat_map].
    - split; [exact I|intros q []].
    - inversion IH as [|? ? It Il]; subst. destruct (It c Ht) as (_ & K1 & L1).
      destruct (IHl Il) as (K2 & L2). split; [auto|]. intros q J. apply in_app_or in J as [J|J]; auto. }
  destruct X2 as (X2 & X3). split; [split; assumption|].
  intros q [<-|J]; [eauto|auto].
Qed.

(** ** Payloads *)

Section DInd.
Variable P : dtree D -> Prop.
Hypothesis H : forall d ts, Forall P ts -> P (DT d ts).
Fixpoint dtree_ind' (t : dtree D) : P t :=
  match t with
  | DT d ts => H d ts ((fix go ts : Forall P ts :=
      match ts with
      | [] => Forall_nil P
      | t :: ts => Forall_cons t (dtree_ind' t) (go ts)
      end) ts)
  end.
End DInd.

Lemma payloads_forall2 h ts ds : payloads h ts ds <-> Forall2 (payload h) ts ds.
Proof. split; induction 1; constructor; auto. Qed.

Lemma payload_ext h h' t :
  (forall q nd, In q (ids t) -> lk h q = Some nd -> exists nd', lk h' q = Some nd' /\ ndata nd' = ndata nd) ->
  forall d, payload h t d -> payload h' t d.
Proof.
  induction t as [n ts IH] using tree_ind'. intros E d H.
  inversion H as [? ? nd ds G Ps]; subst. apply get_ok in G.
  destruct (E n nd (or_introl eq_refl) G) as (nd' & L' & <-).
  constructor; [apply get_ok; exact L'|]. apply payloads_forall2 in Ps. apply payloads_forall2.
  assert (E' : forall q nd, In q (flat_map ids ts) -> lk h q = Some nd ->
     exists nd', lk h' q = Some nd' /\ ndata nd' = ndata nd) by (intros q x J; apply E; right; exact J).
  clear E H G L'. revert IH E'. induction Ps as [|t d ts ds Hp _ IHl]; intros IH E'; [constructor|].
  inversion IH as [|? ? It Il]; subst. constructor.
  - apply It; [|exact Hp]. intros q x J. apply E'. cbn [flat_map]. apply in_or_app. auto.
  - apply IHl; [exact Il|]. intros q x J. apply E'. cbn [flat_map]. apply in_or_app. auto.
Qed.

Lemma payloads_ext h h' ts ds :
  (forall q nd, In q (flat_map ids ts) -> lk h q = Some nd ->
     exists nd', lk h' q = Some nd' /\ ndata nd' = ndata nd) ->
  payloads h ts ds -> payloads h' ts ds.
Proof.
  intros E H. apply payloads_forall2 in H. apply payloads_forall2.
  induction H as [|t d ts ds Hp _ IH]; [constructor|]. cbn [flat_map] in E. constructor.
  - eapply payload_ext; [|exact Hp]. intros q x J. apply E, in_or_app. auto.
  - apply IH. intros q x J. apply E, in_or_app. auto.
Qed.

Lemma payload_live h t d : payload h t d -> forall q, In q (ids t) -> exists nd, lk h q = Some nd.
Proof.
  revert d. induction t as [n ts IH] using tree_ind'. intros d H q I.
  inversion H as [? ? nd ds G Ps]; subst. apply get_ok in G.
  destruct I as [<-|I]; [eauto|]. apply payloads_forall2 in Ps. clear H G.
  revert IH I. induction Ps as [|t d ts ds Hp _ IHl]; intros IH I; [destruct I|].
  inversion IH as [|? ? It Il]; subst. cbn [flat_map] in I.
  apply in_app_or in I as [I|I]; [exact (It d Hp q I)|auto].
Qed.

(** ** Cloning *)

Lemma seg_hd h o l : seg h o l None -> o = hd_error l.
Proof. destruct l; cbn [seg hd_error]; [auto|intros (E & _); exact E]. Qed.

Lemma seg_next h o pre c l cd : seg h o (pre ++ c :: l) None -> lk h c = Some cd -> nnext cd = hd_error l.
Proof.
  intros S L. apply seg_app in S as (x & _ & S). cbn [seg] in S.
  destruct S as (_ & cd' & L' & S). replace cd' with cd in S by congruence.
  exact (seg_hd _ _ _ S).
Qed.

(** What a clone leaves of the old heap. *)
Definition keeps h h' (K K' : nat -> list nat) (F : nat -> list nat) : Prop :=
  length h <= length h' /\
  (forall q, lk h q = None -> q < length h -> lk h' q = None) /\
  forall q nd, lk h q = Some nd ->
    K' q = F q /\ exists nd', lk h' q = Some nd' /\ ndata nd' = ndata nd /\ nparent nd' = nparent nd.

Definition clone_prop fuel t : Prop := forall h K p d,
  inv none h K -> kt K t -> payload h t d -> live_opt h p ->
  (forall q, p = Some q -> ~ In q (ids t)) -> tsize t <= fuel ->
  exists h' K' t',
    clone_fuel fuel h (tid t) p = Ok (h', length h) /\ inv none h' K' /\
    tid t' = length h /\ kt K' t' /\ payload h' t' (mirror d) /\
    (forall x, In x (ids t') -> length h <= x) /\
    (exists nd', lk h' (length h) = Some nd' /\ nparent nd' = p) /\
    keeps h h' K K' (fun q => if is p (Some q) then length h :: K q else K q).

Lemma clone_children_ok fuel n m : forall ts ds h K k pre acc dacc,
  Forall (clone_prop fuel) ts ->
  inv none h K -> kts K ts -> payloads h ts ds ->
  n <> m -> live h n -> K n = pre ++ map tid ts ->
  live h m -> ~ In m (flat_map ids ts) ->
  K m = map tid acc -> kts K acc -> payloads h acc dacc -> (forall x, In x (flat_map ids acc) -> m < x) ->
  length ts < k -> fsize ts <= fuel ->
  exists h' K' acc',
    clone_children (clone_fuel fuel) k h m (hd_error (map tid ts)) = Ok h' /\ inv none h' K' /\
    K' m = map tid acc' /\ kts K' acc' /\ payloads h' acc' (rev (map mirror ds) ++ dacc) /\
    (forall x, In x (flat_map ids acc') -> m < x) /\
    (exists a b, lk h m = Some a /\ lk h' m = Some b /\ ndata b = ndata a /\ nparent b = nparent a) /\
    keeps h h' K K' (fun q => if Nat.eqb q m then K' q else K q).
Proof.
  induction ts as [|t ts IH]; intros ds h K k pre acc dacc HC V Kt Ps Nnm Ln Kn Lm Nm Km Ka Pa Ia Lk F;
    cbn [length] in Lk; (destruct k as [|k]; [lia|]); cbn [map hd_error clone_children].
  - inversion Ps; subst. exists h, K, acc. split; [reflexivity|]. split; [exact V|].
    split; [exact Km|]. split; [exact Ka|]. split; [exact Pa|]. split; [exact Ia|].
    split; [apply live_lk in Lm as (a & La); exists a, a; auto|].
    split; [lia|]. split; [auto|]. intros q nd L. split; [destruct (Nat.eqb q m); reflexivity|eauto].
  - inversion Ps as [|? ? d ds' Hp Ps']; subst. inversion HC as [|? ? Ct HC']; subst.
    cbn [kts fold_right] in Kt. destruct Kt as (Kt & Kts). cbn [flat_map] in Nm.
    rewrite fsize_cons in F. pose proof (tsize_pos t).
    destruct (Ct h K (Some m) d V Kt Hp Lm) as (h1 & K1 & t' & R & V1 & Tid & Kt' & Pt' & It' & _ & Len & Dead & Keep).
    { intros q [= <-] J. apply Nm, in_or_app. auto. }
    { lia. }
    cbn [is] in Keep. rewrite R. cbn [bind].
    pose proof Lm as Lm'. apply live_lk in Lm' as (mn & Lmn).
    pose proof (lk_lt _ _ _ Lmn) as Ltm.
    apply live_lk in Ln as (nn & Lnn).
    destruct (Keep m mn Lmn) as (Km1 & mn1 & Lmn1 & Dm1 & Pm1). rewrite Nat.eqb_refl in Km1.
    destruct (Keep n nn Lnn) as (Kn1 & nn1 & Lnn1 & _).
    replace (m =? n) with false in Kn1 by (symmetry; apply Nat.eqb_neq; auto).
    assert (Lt : exists cd, lk h1 (tid t) = Some cd).
    { destruct (payload_live h t d Hp (tid t)) as (a & La); [destruct t; left; reflexivity|].
      destruct (Keep _ _ La) as (_ & cd & Lcd & _). eauto. }
    destruct Lt as (cd & Lcd). rewrite get_lk, Lcd. cbn [bind].
    pose proof (inv_chain _ _ _ V1 n nn1 Lnn1) as Sn. rewrite Kn1, Kn in Sn. cbn [map] in Sn.
    rewrite (seg_next h1 _ pre (tid t) (map tid ts) cd Sn Lcd).
    assert (KeepNot : forall q nd, lk h q = Some nd -> q <> m -> K1 q = K q).
    { intros q nd L Hq. destruct (Keep q nd L) as (E & _).
      replace (m =? q) with false in E by (symmetry; apply Nat.eqb_neq; auto). exact E. }
    destruct (IH ds' h1 K1 k (pre ++ [tid t]) (t' :: acc) (mirror d :: dacc)) as
      (h2 & K2 & acc' & R2 & V2 & Km2 & Ka2 & Pa2 & Ia2 & (a2 & b2 & La2 & Lb2 & Dab & Pab) & Len2 & Dead2 & Keep2);
      auto; try lia.
    + eapply kts_ext; [|exact Kts]. intros q J.
      assert (LL : exists nd, lk h q = Some nd).
      { apply in_flat_map in J as (u & Ju & Jq). apply payloads_forall2 in Ps'.
        clear - Ps' Ju Jq. induction Ps' as [|u' d us ds Hu _ IHu]; [destruct Ju|].
        destruct Ju as [<-|Ju]; [exact (payload_live h _ _ Hu q Jq)|auto]. }
      destruct LL as (nd & L). eapply KeepNot; [exact L|]. intros ->. apply Nm, in_or_app. auto.
    + eapply payloads_ext; [|exact Ps']. intros q nd _ L.
      destruct (Keep q nd L) as (_ & nd' & L' & E & _). eauto.
    + apply live_lk. eauto.
    + rewrite Kn1, Kn. cbn [map]. rewrite <- app_assoc. reflexivity.
    + apply live_lk. eauto.
    + intros J. apply Nm, in_or_app. auto.
    + rewrite Km1, Km. cbn [map]. rewrite Tid. reflexivity.
    + cbn [kts fold_right]. split; [exact Kt'|].
      eapply kts_ext; [|exact Ka]. intros q J. pose proof (Ia q J) as Gq.
      assert (LL : exists nd, lk h q = Some nd).
      { apply in_flat_map in J as (u & Ju & Jq). apply payloads_forall2 in Pa.
        clear - Pa Ju Jq. induction Pa as [|u' d us ds Hu _ IHu]; [destruct Ju|].
        destruct Ju as [<-|Ju]; [exact (payload_live h _ _ Hu q Jq)|auto]. }
      destruct LL as (nd & L). eapply KeepNot; [exact L|lia].
    + constructor; [exact Pt'|]. eapply payloads_ext; [|exact Pa]. intros q nd _ L.
      destruct (Keep q nd L) as (_ & nd' & L' & E & _). eauto.
    + intros x J. cbn [flat_map] in J. apply in_app_or in J as [J|J]; [|auto].
      pose proof (It' x J). lia.
    + exists h2, K2, acc'. split; [exact R2|]. split; [exact V2|]. split; [exact Km2|].
      split; [exact Ka2|]. split.
      { cbn [map rev]. rewrite <- app_assoc. exact Pa2. }
      split; [exact Ia2|]. split.
      { exists mn, b2. replace a2 with mn1 in * by congruence.
        split; [exact Lmn|]. split; [exact Lb2|]. split; congruence. }
      split; [lia|]. split; [intros q L Hq; apply Dead2; [apply Dead; assumption|lia]|].
      intros q nd L. destruct (Keep q nd L) as (E1 & nd1 & L1 & D1 & P1).
      destruct (Keep2 q nd1 L1) as (E2 & nd2 & L2 & D2 & P2).
      split; [|exists nd2; repeat split; [exact L2|congruence|congruence]].
      destruct (Nat.eqb_spec q m) as [->|Hq]; [reflexivity|].
      rewrite E2. exact (KeepNot q nd L Hq).
Qed.

Lemma clone_ok fuel : forall t, clone_prop fuel t.
Proof.
  induction fuel as [|fuel IHf]; intros t h K p d V Kt Pt Lp Np F.
  - pose proof (tsize_pos t). lia.
  - destruct t as [n ts]. rewrite tsize_eq in F. cbn [tid clone_fuel].
    inversion Pt as [? ? nd ds G Ps]; subst. pose proof G as L. apply get_ok in L.
    rewrite G. cbn [bind].
    destruct (new_ok _ h K p (ndata nd) V Lp (fun f => f)) as
      (h1 & R1 & Len1 & V1 & (md & Lmd & Dmd & Pmd) & Old).
    rewrite R1. cbn [bind].
    set (m := length h) in *.
    assert (Keep : forall q a, lk h q = Some a -> q <> m /\ exists b, lk h1 q = Some b /\ ndata b = ndata a /\ nparent b = nparent a).
    { intros q a La. assert (Hq : q <> m) by (pose proof (lk_lt _ _ _ La); unfold m; lia).
      split; [exact Hq|]. specialize (Old q Hq). rewrite La in Old.
      destruct (lk h1 q) as [b|]; [|destruct Old]. exists b. tauto. }
    assert (KeepK : forall q, q <> m -> created h K p q = if is p (Some q) then m :: K q else K q).
    { intros q Hq. unfold created, fresh_kids. fold m. apply Nat.eqb_neq in Hq. rewrite Hq. reflexivity. }
    assert (Np' : forall q, In q (n :: flat_map ids ts) -> is p (Some q) = false).
    { intros q J. destruct p as [p|]; [|reflexivity]. cbn [is]. apply Nat.eqb_neq. intros ->.
      exact (Np q eq_refl J). }
    destruct (Keep n nd L) as (Hnm & nd1 & L1 & D1 & P1).
    rewrite get_lk, L1. cbn [bind].
    cbn [kt] in Kt. destruct Kt as (Kn & Kts).
    assert (Kn1 : created h K p n = map tid ts).
    { rewrite KeepK by exact Hnm. rewrite Np' by (left; reflexivity). exact Kn. }
    pose proof (inv_chain _ _ _ V1 n nd1 L1) as S. rewrite Kn1 in S.
    rewrite (seg_hd _ _ _ S).
    assert (LenT : length ts < Datatypes.S (length h1)).
    { pose proof (seg_length _ _ _ _ S) as X. rewrite <- Kn1 in X at 1.
      specialize (X (inv_nodup _ _ _ V1 n nd1 L1)). rewrite map_length in X. lia. }
    assert (LiveT : forall q, In q (flat_map ids ts) -> exists a, lk h q = Some a).
    { intros q J. exact (payload_live h _ _ Pt q (or_intror J)). }
    destruct (clone_children_ok fuel n m ts ds h1 (created h K p) (Datatypes.S (length h1)) [] [] [])
      as (h2 & K2 & acc & R2 & V2 & Km2 & Ka2 & Pa2 & Ia2 & (a2 & b2 & La2 & Lb2 & Dab & Pab) & Len2 & Dead2 & Keep2);
      auto; try lia.
    + apply Forall_forall. intros t _. apply IHf.
    + eapply kts_ext; [|exact Kts]. intros q J. destruct (LiveT q J) as (a & La).
      destruct (Keep q a La) as (Hq & _). rewrite KeepK by exact Hq.
      rewrite Np' by (right; exact J). reflexivity.
    + eapply payloads_ext; [|exact Ps]. intros q a _ La.
      destruct (Keep q a La) as (_ & b & Lb & Db & _). eauto.
    + apply live_lk. eauto.
    + apply live_lk. eauto.
    + intros J. destruct (LiveT m J) as (a & La). destruct (Keep m a La) as (Hq & _). congruence.
    + unfold created, fresh_kids. fold m. rewrite Nat.eqb_refl.
      destruct p as [p|]; [|reflexivity]. cbn [is].
      destruct (Nat.eqb_spec p m) as [->|]; [|reflexivity].
      exfalso. cbn [live_opt] in Lp. apply live_lk in Lp as (a & La). destruct (Keep m a La). congruence.
    + exact I.
    + constructor.
    + intros x [].
    + rewrite R2. cbn [bind].
      exists h2, K2, (T m acc). split; [reflexivity|]. split; [exact V2|]. split; [reflexivity|].
      split; [cbn [kt]; split; [exact Km2|exact Ka2]|].
      split.
      { cbn [mirror]. rewrite app_nil_r in Pa2. replace (ndata nd) with (ndata b2).
        - constructor; [apply get_ok; exact Lb2|exact Pa2].
        - replace a2 with md in * by congruence. congruence. }
      split; [intros x [<-|J]; [lia|pose proof (Ia2 x J); lia]|].
      split; [exists b2; replace a2 with md in * by congruence; split; [exact Lb2|congruence]|].
      split; [lia|]. split.
      { intros q Lq Hq. apply Dead2; [|lia].
        assert (Hm : q <> m) by (unfold m; lia). specialize (Old q Hm). rewrite Lq in Old.
        destruct (lk h1 q); [destruct Old|reflexivity]. }
      intros q a La. destruct (Keep q a La) as (Hq & b & Lb & Db & Pb).
      destruct (Keep2 q b Lb) as (E2 & c & Lc & Dc & Pc).
      apply Nat.eqb_neq in Hq as Hq'. rewrite Hq' in E2.
      split; [rewrite E2; apply KeepK; exact Hq|]. exists c. repeat split; [exact Lc|congruence|congruence].
Qed.

(** ** Recursive deletion *)

Definition delete_prop fuel t : Prop := forall h K,
  inv none h K -> kt K t -> (forall q, In q (ids t) -> exists nd, lk h q = Some nd) ->
  NoDup (ids t) -> tsize t <= fuel ->
  exists h' K',
    recursive_delete_fuel fuel h (tid t) = Ok h' /\ inv none h' K' /\
    (forall q, In q (ids t) -> lk h' q = None) /\
    (forall q, ~ In q (ids t) ->
       match lk h q, lk h' q with
       | Some a, Some b => ndata b = ndata a /\ nparent b = nparent a /\
                           K' q = remove Nat.eq_dec (tid t) (K q)
       | None, None => True
       | _, _ => False
       end).

Lemma kts_kids K ts : kts K ts -> forall q c, In q (flat_map ids ts) -> In c (K q) -> In c (flat_map ids ts) /\ ~ In c (map tid ts) \/ In c (flat_map ids ts).
Proof.
  intros H q c Jq Jc. right.
  assert (A : forall t, kt K t -> In q (ids t) -> In c (ids t)).
  { induction t as [n us IH] using tree_ind'. intros (E & Ks) [<-|J].
    - right. rewrite E in Jc. apply in_map_iff in Jc as (u & <- & Ju).
      apply in_flat_map. exists u. split; [exact Ju|]. destruct u; left; reflexivity.
    - right. apply in_flat_map in J as (u & Ju & Jqu). apply in_flat_map. exists u. split; [exact Ju|].
      rewrite Forall_forall in IH. apply IH; auto.
      clear - Ks Ju. induction us as [|v us IH]; [destruct Ju|]. destruct Ks as (K1 & K2).
      destruct Ju as [<-|Ju]; auto. }
  apply in_flat_map in Jq as (t & Jt & Jq). apply in_flat_map. exists t. split; [exact Jt|].
  apply A; [|exact Jq]. clear - H Jt. induction ts as [|v us IH]; [destruct Jt|].
  destruct H as (K1 & K2). destruct Jt as [<-|Jt]; auto.
Qed.

Lemma nodup_app_disj (a b : list nat) : NoDup (a ++ b) -> NoDup a /\ NoDup b /\ forall x, In x a -> ~ In x b.
Proof.
  induction a as [|x a IH]; intros H; [repeat split; [constructor|exact H|intros y []]|].
  cbn [app] in H. inversion H as [|? ? N ND]; subst. destruct (IH ND) as (A & B & C).
  repeat split.
  - constructor; [intros I; apply N, in_or_app; auto|exact A].
  - exact B.
  - intros y [<-|I]; [intros J; apply N, in_or_app; auto|auto].
Qed.

Lemma delete_children_ok fuel n : forall ts h K k,
  Forall (delete_prop fuel) ts ->
  inv none h K -> kts K ts -> live h n -> K n = map tid ts ->
  (forall q, In q (flat_map ids ts) -> exists nd, lk h q = Some nd) ->
  NoDup (n :: flat_map ids ts) -> length ts < k -> fsize ts <= fuel ->
  exists h' K',
    delete_children (recursive_delete_fuel fuel) k h n = Ok h' /\ inv none h' K' /\
    K' n = [] /\
    (forall q, In q (flat_map ids ts) -> lk h' q = None) /\
    (forall q, ~ In q (flat_map ids ts) ->
       match lk h q, lk h' q with
       | Some a, Some b => ndata b = ndata a /\ nparent b = nparent a /\ (q <> n -> K' q = K q)
       | None, None => True
       | _, _ => False
       end).
Proof.
  induction ts as [|t ts IH]; intros h K k HC V Ks Ln Kn Lq ND Lk F; cbn [length] in Lk;
    (destruct k as [|k]; [lia|]); cbn [delete_children];
    pose proof Ln as Ln'; apply live_lk in Ln' as (nd & L); rewrite get_lk, L; cbn [bind];
    pose proof (inv_chain _ _ _ V n nd L) as S; rewrite Kn in S; cbn [map] in S;
    rewrite (seg_hd _ _ _ S); cbn [hd_error].
  - exists h, K. split; [reflexivity|]. split; [exact V|]. split; [exact Kn|].
    split; [intros q []|]. intros q _. destruct (lk h q); auto.
  - inversion HC as [|? ? Ct HC']; subst. destruct Ks as (Kt & Ks).
    rewrite fsize_cons in F. pose proof (tsize_pos t). cbn [flat_map] in *.
    inversion ND as [|? ? Nn ND']; subst.
    apply nodup_app_disj in ND' as (Nt & Nts & Dis).
    destruct (Ct h K V Kt) as (h1 & K1 & R & V1 & Dead & Keep); auto; try lia.
    { intros q J. apply Lq, in_or_app. auto. }
    rewrite R. cbn [bind].
    assert (Hnt : ~ In n (ids t)) by (intros J; apply Nn, in_or_app; auto).
    assert (Tt : In (tid t) (ids t)) by (destruct t; left; reflexivity).
    assert (KeepL : forall q a, ~ In q (ids t) -> lk h q = Some a -> exists b, lk h1 q = Some b /\ K1 q = remove Nat.eq_dec (tid t) (K q)).
    { intros q a N La. specialize (Keep q N). rewrite La in Keep.
      destruct (lk h1 q) as [b|]; [|destruct Keep]. exists b. tauto. }
    assert (Dis' : forall q, In q (flat_map ids ts) -> ~ In q (ids t)) by (intros q J1 J2; exact (Dis q J2 J1)).
    assert (Ntid : ~ In (tid t) (map tid ts)).
    { intros J. apply in_map_iff in J as (u & E & Ju). apply (Dis (tid t) Tt).
      apply in_flat_map. exists u. split; [exact Ju|]. rewrite <- E. destruct u; left; reflexivity. }
    destruct (IH h1 K1 k) as (h2 & K2 & R2 & V2 & Kn2 & Dead2 & Keep2); auto; try lia.
    + eapply kts_ext; [|exact Ks]. intros q J. destruct (Lq q) as (a & La); [apply in_or_app; auto|].
      destruct (KeepL q a (Dis' q J) La) as (b & _ & E). rewrite E. apply notin_remove.
      intros Jc. destruct (kts_kids K ts Ks q (tid t) J Jc) as [[J' _]|J']; exact (Dis _ Tt J').
    + destruct (KeepL n nd Hnt L) as (b & Lb & _). apply live_lk. eauto.
    + destruct (KeepL n nd Hnt L) as (b & Lb & E). rewrite E, Kn. cbn [map remove].
      destruct (Nat.eq_dec (tid t) (tid t)); [|congruence]. apply notin_remove. exact Ntid.
    + intros q J. destruct (Lq q) as (a & La); [apply in_or_app; auto|].
      destruct (KeepL q a (Dis' q J) La) as (b & Lb & _). eauto.
    + constructor; [|exact Nts]. intros J. apply Nn, in_or_app. auto.
    + exists h2, K2. split; [exact R2|]. split; [exact V2|]. split; [exact Kn2|]. split.
      * intros q J. destruct (in_dec Nat.eq_dec q (flat_map ids ts)) as [J'|J']; [auto|].
        apply in_app_or in J as [J|J]; [|contradiction].
        specialize (Keep2 q J'). rewrite (Dead q J) in Keep2.
        destruct (lk h2 q); [destruct Keep2|reflexivity].
      * intros q N.
        assert (N1 : ~ In q (ids t)) by (intros J; apply N, in_or_app; auto).
        assert (N2 : ~ In q (flat_map ids ts)) by (intros J; apply N, in_or_app; auto).
        specialize (Keep q N1). specialize (Keep2 q N2).
        destruct (lk h q) as [a|] eqn:La, (lk h1 q) as [b|] eqn:Lb, (lk h2 q) as [c|]; try tauto.
        destruct Keep as (D1 & P1 & E1), Keep2 as (D2 & P2 & E2).
        split; [congruence|]. split; [congruence|]. intros Hq. rewrite (E2 Hq), E1.
        apply notin_remove. intros Jc. apply Hq.
        assert (Jn : In (tid t) (K n)) by (rewrite Kn; left; reflexivity).
        destruct (inv_down _ _ _ V n nd (tid t) L Jn) as (_ & cn & Lc & Pc).
        exact (inv_only _ h K (tid t) cn n q a V Lc Pc La Jc).
Qed.

Lemma delete_ok fuel : forall t, delete_prop fuel t.
Proof.
  induction fuel as [|fuel IHf]; intros t h K V Kt Lq ND F.
  - pose proof (tsize_pos t). lia.
  - destruct t as [n ts]. rewrite tsize_eq in F. cbn [tid recursive_delete_fuel ids] in *.
    destruct Kt as (Kn & Ks). fold (kts K ts) in Ks.
    destruct (Lq n (or_introl eq_refl)) as (nd & L).
    assert (LenT : length ts < Datatypes.S (length h)).
    { pose proof (seg_length _ _ _ _ (inv_chain _ _ _ V n nd L) (inv_nodup _ _ _ V n nd L)) as X.
      rewrite Kn, map_length in X. lia. }
    destruct (delete_children_ok fuel n ts h K (Datatypes.S (length h))) as
      (h1 & K1 & R1 & V1 & Kn1 & Dead & Keep); auto; try lia.
    { apply Forall_forall. intros t _. apply IHf. }
    { apply live_lk. eauto. }
    { intros q J. apply Lq. right. exact J. }
    rewrite R1. cbn [bind].
    inversion ND as [|? ? Nn ND']; subst.
    pose proof (Keep n Nn) as Kpn. rewrite L in Kpn.
    destruct (lk h1 n) as [nd1|] eqn:L1; [|destruct Kpn].
    destruct (destroy_ok h1 K1 n nd1 V1 L1) as (h2 & R2 & _ & V2 & Ln2 & Keep2).
    exists h2, (fun q => remove Nat.eq_dec n (K1 q)). split; [exact R2|]. split; [exact V2|]. split.
    + intros q [<-|J]; [exact Ln2|]. specialize (Dead q J).
      assert (Hq : q <> n) by congruence. specialize (Keep2 q Hq). rewrite Dead in Keep2.
      destruct (lk h2 q); [destruct Keep2|reflexivity].
    + intros q N. assert (Hq : q <> n) by (intros ->; apply N; left; reflexivity).
      assert (N' : ~ In q (flat_map ids ts)) by (intros J; apply N; right; exact J).
      specialize (Keep q N'). specialize (Keep2 q Hq).
      destruct (lk h q) as [a|], (lk h1 q) as [b|] eqn:Lb, (lk h2 q) as [c|]; try tauto.
      destruct Keep as (D1 & P1 & E1), Keep2 as (D2 & P2).
      split; [congruence|]. split; [|rewrite E1 by exact Hq; reflexivity].
      destruct (nparent b) as [r|] eqn:Er; [|cbn [is] in P2; congruence].
      cbn [is] in P2. destruct (Nat.eqb_spec r n) as [Hr|]; [|congruence].
      exfalso. subst r. destruct (inv_up _ _ _ V1 q b n Lb (fun f => f) Er) as (_ & J).
      rewrite Kn1 in J. destruct J.
Qed.
End Copy.

Section More.
Context {D : Type}.
Implicit Type h : heap D.

Lemma above_trans h a b c : above h a b -> above h b c -> above h a c.
Proof. intros H1 H2. induction H2; [exact H1|]. econstructor; eauto. Qed.

Lemma above_live h a n : above h a n -> live h n.
Proof.
  destruct 1 as [n L|a p n P _]; [exact L|]. apply parent_lk in P as (nd & L & _). apply live_lk. eauto.
Qed.

(** The nodes of the tree below [n] are those that have [n] above them. *)
Lemma tree_above h n t : good h -> (exists l, path h n l) -> tree_at h n t ->
  forall m, In m (ids t) <-> above h n m.
Proof.
  intros G (l & P) Ht m. pose proof G as (K & V). split.
  - intros J. destruct (tree_path h t G n l P Ht m J) as (a & Pm).
    apply (path_above h m _ Pm). apply in_or_app. right.
    destruct (path_head h n l P) as (l' & ->). left. reflexivity.
  - destruct (tree_at_kt _ h K t V n Ht) as (E & Kt & Lv).
    induction 1 as [n Ln|n p m Pm _ IH].
    + rewrite <- E. destruct t; left; reflexivity.
    + specialize (IH P Ht E). apply parent_lk in Pm as (md & Lm & Em).
      destruct (inv_up _ _ _ V m md p Lm (fun f => f) Em) as (_ & J).
      destruct (kts_kids K [t]) with (q := p) (c := m) as [[X _]|X]; auto.
      * split; [exact Kt|exact I].
      * cbn [flat_map]. rewrite app_nil_r. exact IH.
      * cbn [flat_map] in X. rewrite app_nil_r in X. exact X.
      * cbn [flat_map] in X. rewrite app_nil_r in X. exact X.
Qed.

Lemma cycle_walk h h' n p :
  above h n p -> parent h' n = Ok (Some p) -> (forall m, m <> n -> parent h' m = parent h m) ->
  forall fuel x, above h n x -> above h x p -> up_chain fuel h' (Some x) = UB NoTerm.
Proof.
  intros A Pn Po. induction fuel as [|fuel IH]; intros x Ax Bx; [reflexivity|].
  cbn [up_chain]. destruct (Nat.eq_dec x n) as [->|Hx].
  - apply parent_lk in Pn as (nd & L & E). rewrite get_lk, L. cbn [bind]. rewrite E.
    rewrite IH; [reflexivity|exact A|]. apply above_self. apply (above_live _ _ _ A).
  - inversion Ax as [|? q ? Pq Aq]; subst; [congruence|].
    pose proof Pq as Pq'. rewrite <- (Po x Hx) in Pq'. apply parent_lk in Pq' as (nd & L & E).
    rewrite get_lk, L. cbn [bind]. rewrite E. rewrite IH; [reflexivity|exact Aq|].
    eapply above_trans; [|exact Bx]. econstructor; [exact Pq|]. apply above_self.
    eapply above_live. exact Aq.
Qed.

(** Cloning a node below itself. *)
Lemma clone_self fuel : forall h n, good h -> live h n -> clone_fuel fuel h n (Some n) = UB NoTerm.
Proof.
  induction fuel as [|fuel IH]; intros h n (K & V) L; [reflexivity|]. cbn [clone_fuel].
  pose proof L as L'. apply live_lk in L' as (nd & Ln). rewrite get_lk, Ln. cbn [bind].
  destruct (new_ok _ h K (Some n) (ndata nd) V L (fun f => f)) as
    (h1 & R1 & Len1 & V1 & (md & Lmd & _) & Old).
  rewrite R1. cbn [bind].
  assert (Hn : n <> length h) by (pose proof (lk_lt _ _ _ Ln); lia).
  pose proof (Old n Hn) as On. rewrite Ln in On. destruct (lk h1 n) as [nd1|] eqn:L1; [|destruct On].
  rewrite get_lk, L1. cbn [bind].
  pose proof (inv_chain _ _ _ V1 n nd1 L1) as S. unfold created in S. cbn [is] in S.
  rewrite Nat.eqb_refl in S. rewrite (seg_hd _ _ _ S). cbn [hd_error].
  cbn [clone_children]. rewrite IH; [reflexivity|exists (created h K (Some n)); exact V1|].
  apply live_lk. eauto.
Qed.

(** Clones and recursive deletions are made of the basic calls. *)
Lemma new_grown h p d h' m : new_node h p d = Ok (h', m) -> grown h -> live_opt h p ->
  grown h' /\ live h' m /\ forall q, live h q -> live h' q.
Proof.
  intros R G Lp. destruct (reachable_good h (grown_reachable h G)) as (K & V).
  destruct (new_ok _ h K p d V Lp (fun f => f)) as (h1 & R1 & Len1 & V1 & (md & Lmd & _) & Old).
  rewrite R1 in R. injection R as <- <-. split; [|split].
  - eapply (grown_step h (New p d)); [exact G|exact Lp|exact I|]. cbn [step]. rewrite R1. reflexivity.
  - apply live_lk. eauto.
  - intros q Lq. apply live_lk in Lq as (a & La). apply live_lk.
    destruct (Nat.eq_dec q (length h)) as [->|Hq]; [eauto|].
    specialize (Old q Hq). rewrite La in Old. destruct (lk h1 q) as [b|]; [eauto|destruct Old].
Qed.

Lemma clone_grown fuel : forall h n p h' m, clone_fuel fuel h n p = Ok (h', m) -> grown h -> live_opt h p ->
  grown h' /\ forall q, live h q -> live h' q.
Proof.
  induction fuel as [|fuel IH]; intros h n p h' m R G Lp; [discriminate|]. cbn [clone_fuel] in R.
  destruct (get h n) as [nd| |]; try discriminate. cbn [bind] in R.
  destruct (new_node h p (ndata nd)) as [(h1 & m1)| |] eqn:E1; try discriminate. cbn [bind] in R.
  destruct (new_grown _ _ _ _ _ E1 G Lp) as (G1 & L1 & Old1).
  destruct (get h1 n) as [nd1| |]; try discriminate. cbn [bind] in R.
  destruct (clone_children _ _ h1 m1 _) as [h2| |] eqn:E2; try discriminate. cbn [bind] in R.
  injection R as <- <-.
  assert (X : forall k h1 c h2, clone_children (clone_fuel fuel) k h1 m1 c = Ok h2 -> grown h1 -> live h1 m1 ->
     grown h2 /\ forall q, live h1 q -> live h2 q).
  { clear - IH. induction k as [|k IHk]; intros h1 c h2 R G L; [discriminate|]. cbn [clone_children] in R.
    destruct c as [c|]; [|injection R as <-; auto].
    destruct (clone_fuel fuel h1 c (Some m1)) as [(h3 & m3)| |] eqn:E; try discriminate. cbn [bind] in R.
    destruct (IH _ _ _ _ _ E G L) as (G3 & O3).
    destruct (get h3 c) as [cd| |]; try discriminate. cbn [bind] in R.
    destruct (IHk _ _ _ R G3 (O3 _ L)) as (G2 & O2). split; [exact G2|auto]. }
  destruct (X _ _ _ _ E2 G1 L1) as (G2 & O2). split; [exact G2|auto].
Qed.

Lemma delete_grown fuel : forall h n h', recursive_delete_fuel fuel h n = Ok h' -> grown h -> grown h'.
Proof.
  induction fuel as [|fuel IH]; intros h n h' R G; [discriminate|]. cbn [recursive_delete_fuel] in R.
  destruct (delete_children _ _ h n) as [h1| |] eqn:E; try discriminate. cbn [bind] in R.
  assert (X : forall k h h1, delete_children (recursive_delete_fuel fuel) k h n = Ok h1 -> grown h -> grown h1).
  { clear - IH. induction k as [|k IHk]; intros h h1 R G; [discriminate|]. cbn [delete_children] in R.
    destruct (get h n) as [nd| |]; try discriminate. cbn [bind] in R.
    destruct (nfirst nd) as [c|]; [|injection R as <-; exact G].
    destruct (recursive_delete_fuel fuel h c) as [h2| |] eqn:E; try discriminate. cbn [bind] in R.
    eauto. }
  pose proof (X _ _ _ E G) as G1. eapply (grown_step h1 (Destroy n)); [exact G1| |exact I|exact R].
  cbn [legal]. unfold destroy in R. destruct (get h1 n) as [nd| |] eqn:En; try discriminate.
  exists nd. exact En.
Qed.
End More.
