From Verif Require Import Lib.Base Lib.Lists Tree.Model Tree.Spec.
From Coq Require Import List Arith Bool ZArith Lia.
Import ListNotations.
Open Scope nat_scope.

Section Proofs.
Context {D : Type}.
Implicit Type h : heap D.

Ltac bt := cbv beta in *; tauto.

(** ** The heap as a partial map *)

Definition lk h (n : nat) : option (node D) :=
  match nth_error h n with Some (Some nd) => Some nd | _ => None end.

Lemma get_lk h n : get h n = match lk h n with Some nd => Ok nd | None => UB BadIter end.
Proof. unfold get, lk. destruct (nth_error h n) as [[nd|]|]; reflexivity. Qed.

Lemma get_ok h n nd : get h n = Ok nd <-> lk h n = Some nd.
Proof. rewrite get_lk. destruct (lk h n); split; congruence. Qed.

Lemma lk_lt h n nd : lk h n = Some nd -> n < length h.
Proof.
  unfold lk. intros H. apply nth_error_Some. intros E. rewrite E in H. discriminate.
Qed.

Lemma live_lk h n : live h n <-> exists nd, lk h n = Some nd.
Proof. unfold live. split; intros [nd H]; exists nd; apply get_ok; exact H. Qed.

Lemma lk_upd_eq h n v : n < length h -> lk (upd h n v) n = v.
Proof.
  intros H. unfold lk. rewrite upd_eq by exact H. destruct v; reflexivity.
Qed.

Lemma lk_upd_neq h n v m : m <> n -> lk (upd h n v) m = lk h m.
Proof. intros H. unfold lk. rewrite upd_neq by congruence. reflexivity. Qed.

Lemma modify_ok h n nd f :
  lk h n = Some nd ->
  exists h', modify h n f = Ok h' /\ length h' = length h /\
    lk h' n = Some (f nd) /\ forall m, m <> n -> lk h' m = lk h m.
Proof.
  intros H. unfold modify. rewrite get_lk, H. cbn [bind].
  eexists. split; [reflexivity|]. split; [apply upd_length|].
  split; [apply lk_upd_eq; exact (lk_lt _ _ _ H)|].
  intros m Hm. apply lk_upd_neq. exact Hm.
Qed.

(** ** Linked segments *)

Fixpoint seg h (o : option nat) (l : list nat) (o' : option nat) : Prop :=
  match l with
  | [] => o = o'
  | c :: l' => o = Some c /\ exists nd, lk h c = Some nd /\ seg h (nnext nd) l' o'
  end.

Lemma seg_app h l1 : forall l2 o o',
  seg h o (l1 ++ l2) o' <-> exists x, seg h o l1 x /\ seg h x l2 o'.
Proof.
  induction l1 as [|c l1 IH]; intros l2 o o'; cbn [app seg].
  - split; [intros H; exists o; auto|]. intros (x & -> & H). exact H.
  - split.
    + intros (E & nd & L & H). apply IH in H as (x & H1 & H2). exists x. eauto.
    + intros (x & (E & nd & L & H1) & H2). split; [exact E|]. exists nd. split; [exact L|].
      apply IH. eauto.
Qed.

(** Only the next pointers of the members matter. *)
Lemma seg_ext h h' l : forall o o',
  (forall c nd, In c l -> lk h c = Some nd ->
     exists nd', lk h' c = Some nd' /\ nnext nd' = nnext nd) ->
  seg h o l o' -> seg h' o l o'.
Proof.
  induction l as [|c l IH]; intros o o' E H; cbn [seg] in *; [exact H|].
  destruct H as (-> & nd & L & H). split; [reflexivity|].
  destruct (E c nd (or_introl eq_refl) L) as (nd' & L' & N).
  exists nd'. split; [exact L'|]. rewrite N. apply IH; [|exact H].
  intros c' nd0 I. apply E. right; exact I.
Qed.

Lemma seg_members h l : forall o o', seg h o l o' -> forall c, In c l -> exists nd, lk h c = Some nd.
Proof.
  induction l as [|c l IH]; intros o o' H x I; [destruct I|].
  cbn [seg] in H. destruct H as (_ & nd & L & H). destruct I as [<-|I]; [eauto|].
  exact (IH _ _ H x I).
Qed.

Lemma seg_length h l o o' : seg h o l o' -> NoDup l -> length l <= length h.
Proof.
  intros H N. rewrite <- (seq_length (length h) 0). apply NoDup_incl_length; [exact N|].
  intros c I. destruct (seg_members h l o o' H c I) as [nd L].
  apply in_seq. pose proof (lk_lt _ _ _ L). lia.
Qed.

Lemma siblings_seg h l : forall o fuel,
  seg h o l None -> length l < fuel -> siblings fuel h o = Ok l.
Proof.
  induction l as [|c l IH]; intros o fuel H L; cbn [seg] in H; cbn [length] in L;
    (destruct fuel as [|fuel]; [lia|]); cbn [siblings].
  - subst o. reflexivity.
  - destruct H as (-> & nd & E & H). rewrite get_lk, E. cbn [bind].
    rewrite (IH _ fuel H) by lia. reflexivity.
Qed.

(** ** The invariant: [K p] is the list of children of [p].  The nodes in [X] have
    just been taken out of their parent's list. *)
Record inv (X : nat -> Prop) h (K : nat -> list nat) : Prop := Inv {
  inv_chain : forall p nd, lk h p = Some nd -> seg h (nfirst nd) (K p) None;
  inv_nodup : forall p nd, lk h p = Some nd -> NoDup (K p);
  inv_root : forall p nd, lk h p = Some nd -> nparent nd = None \/ X p -> nnext nd = None;
  inv_up : forall p nd q, lk h p = Some nd -> ~ X p -> nparent nd = Some q ->
             (exists qn, lk h q = Some qn) /\ In p (K q);
  inv_down : forall p nd c, lk h p = Some nd -> In c (K p) ->
             ~ X c /\ exists cn, lk h c = Some cn /\ nparent cn = Some p
}.

Lemma inv_children X h K p nd :
  inv X h K -> lk h p = Some nd -> children h p = Ok (K p).
Proof.
  intros I L. unfold children. rewrite get_lk, L. cbn [bind].
  pose proof (inv_chain X h K I p nd L) as S.
  apply siblings_seg; [exact S|].
  pose proof (seg_length h (K p) _ _ S (inv_nodup X h K I p nd L)). lia.
Qed.

Lemma inv_only X h K c nd p q pn :
  inv X h K -> lk h c = Some nd -> nparent nd = Some p ->
  lk h q = Some pn -> In c (K q) -> q = p.
Proof.
  intros I L P Q H. destruct (inv_down X h K I q pn c Q H) as (_ & cn & L' & E).
  congruence.
Qed.

(** The change of a cell: payload kept, the rest as described. *)
Definition changes h h' (P : nat -> node D -> node D -> Prop) : Prop :=
  length h' = length h /\
  forall m, match lk h m, lk h' m with
            | Some a, Some b => ndata b = ndata a /\ P m a b
            | None, None => True
            | _, _ => False
            end.

Lemma changes_some h h' P m a :
  changes h h' P -> lk h m = Some a ->
  exists b, lk h' m = Some b /\ ndata b = ndata a /\ P m a b.
Proof.
  intros [_ H] L. specialize (H m). rewrite L in H.
  destruct (lk h' m) as [b|]; [|destruct H]. exists b. bt.
Qed.

Lemma changes_back h h' P m b :
  changes h h' P -> lk h' m = Some b ->
  exists a, lk h m = Some a /\ ndata b = ndata a /\ P m a b.
Proof.
  intros [_ H] L. specialize (H m). rewrite L in H.
  destruct (lk h m) as [a|]; [|destruct H]. exists a. bt.
Qed.

Lemma modify_changes h n nd f :
  lk h n = Some nd -> ndata (f nd) = ndata nd ->
  exists h', modify h n f = Ok h' /\
    changes h h' (fun m a b => b = if Nat.eqb m n then f a else a).
Proof.
  intros L E. destruct (modify_ok h n nd f L) as (h' & M & Len & L1 & L2).
  exists h'. split; [exact M|]. split; [exact Len|]. intros m.
  destruct (Nat.eqb_spec m n) as [->|H].
  - rewrite L, L1. auto.
  - rewrite L2 by exact H. destruct (lk h m); auto.
Qed.

Lemma changes_trans h1 h2 h3 (P Q R : nat -> node D -> node D -> Prop) :
  changes h1 h2 P -> changes h2 h3 Q ->
  (forall m a b c, P m a b -> Q m b c -> R m a c) ->
  changes h1 h3 R.
Proof.
  intros [L1 H1] [L2 H2] C. split; [congruence|]. intros m.
  specialize (H1 m). specialize (H2 m).
  destruct (lk h1 m) as [a|], (lk h2 m) as [b|], (lk h3 m) as [c|]; try bt.
  destruct H1 as [E1 P1], H2 as [E2 P2]. split; [congruence|]. eapply C; eassumption.
Qed.

Lemma changes_weaken h h' (P Q : nat -> node D -> node D -> Prop) :
  changes h h' P ->
  (forall m a b, lk h m = Some a -> lk h' m = Some b -> P m a b -> Q m a b) ->
  changes h h' Q.
Proof.
  intros [L H] W. split; [exact L|]. intros m. specialize (H m). specialize (W m).
  destruct (lk h m), (lk h' m); try bt. destruct H; auto.
Qed.

Lemma changes_refl h (P : nat -> node D -> node D -> Prop) :
  (forall m a, P m a a) -> changes h h P.
Proof. intros H. split; [reflexivity|]. intros m. destruct (lk h m); auto. Qed.

(** ** Registering *)

Lemma register_ok h p c pn cn :
  lk h p = Some pn -> lk h c = Some cn ->
  exists h', register_child h p c = Ok h' /\
    changes h h' (fun m a b =>
      nparent b = nparent a /\
      nfirst b = (if Nat.eqb m p then Some c else nfirst a) /\
      nnext b = (if Nat.eqb m c then nfirst pn else nnext a)).
Proof.
  intros P C. unfold register_child. rewrite get_lk, P. cbn [bind].
  destruct (modify_changes h c cn (with_next (nfirst pn)) C eq_refl) as (h1 & M1 & C1).
  rewrite M1. cbn [bind].
  destruct (changes_some _ _ _ p pn C1 P) as (pn' & P' & _).
  destruct (modify_changes h1 p pn' (with_first (Some c)) P' eq_refl) as (h2 & M2 & C2).
  exists h2. split; [exact M2|].
  eapply changes_trans; [exact C1|exact C2|].
  intros m a b d -> ->. cbn beta.
  destruct (Nat.eqb m c), (Nat.eqb m p); cbn; auto.
Qed.

(** ** Deregistering *)

Definition prev_loc (a : list nat) (prev : loc) : loc :=
  match rev a with [] => prev | y :: _ => Next y end.

Lemma dereg_run h c cn b a : forall prev cur fuel,
  seg h cur (a ++ c :: b) None -> ~ In c a -> lk h c = Some cn ->
  length a < fuel ->
  deregister_loop fuel h c prev cur =
  (h1 <- write h (prev_loc a prev) (nnext cn) ;; modify h1 c (with_next None)).
Proof.
  induction a as [|y a IH]; intros prev cur fuel S N L F; cbn [length] in F;
    (destruct fuel as [|fuel]; [lia|]); cbn [app seg] in S; destruct S as (-> & nd & L' & S);
    cbn [deregister_loop]; rewrite get_lk, L'; cbn [bind].
  - rewrite Nat.eqb_refl. replace nd with cn by congruence. reflexivity.
  - destruct (Nat.eqb_spec y c) as [->|H]; [exfalso; apply N; left; reflexivity|].
    rewrite (IH (Next y) (nnext nd) fuel) by (auto; try lia; intros I; apply N; right; exact I).
    f_equal. unfold prev_loc. cbn [rev].
    destruct (rev a) as [|z r] eqn:R; [reflexivity|]. reflexivity.
Qed.

Lemma remove_mid (c : nat) a b : NoDup (a ++ c :: b) -> remove Nat.eq_dec c (a ++ c :: b) = a ++ b.
Proof.
  intros N. rewrite remove_app. cbn [remove]. destruct (Nat.eq_dec c c) as [_|X]; [|congruence].
  pose proof (NoDup_remove_2 _ _ _ N) as M.
  rewrite !notin_remove; [reflexivity| |]; intros I; apply M, in_or_app; auto.
Qed.

Lemma NoDup_remove_nat (c : nat) l : NoDup l -> NoDup (remove Nat.eq_dec c l).
Proof.
  induction 1 as [|x l N _ IH]; [constructor|]. cbn [remove].
  destruct (Nat.eq_dec c x); [exact IH|]. constructor; [|exact IH].
  intros J. apply in_remove in J as [J _]. contradiction.
Qed.

Lemma dereg_ok h p pn c cn l :
  lk h p = Some pn -> lk h c = Some cn ->
  seg h (nfirst pn) l None -> NoDup l -> In c l ->
  exists h', deregister_child h p c = Ok h' /\
    changes h h' (fun m a b =>
      nparent b = nparent a /\
      (m <> p -> nfirst b = nfirst a) /\
      (~ In m l -> nnext b = nnext a) /\
      (m = c -> nnext b = None) /\
      (m = p -> seg h' (nfirst b) (remove Nat.eq_dec c l) None)).
Proof.
  intros P C S N I.
  destruct (in_split c l I) as (a & b & ->).
  rewrite (remove_mid c a b N).
  pose proof (NoDup_remove_2 _ _ _ N) as NR.
  pose proof (NoDup_remove_1 _ _ _ N) as ND.
  assert (Nca : ~ In c a) by (intros J; apply NR, in_or_app; auto).
  assert (Ncb : ~ In c b) by (intros J; apply NR, in_or_app; auto).
  pose proof (seg_length _ _ _ _ S N) as LL. rewrite app_length in LL. cbn [length] in LL.
  unfold deregister_child. rewrite get_lk, P. cbn [bind].
  rewrite (dereg_run h c cn b a (First p) _ _ S Nca C) by lia.
  unfold prev_loc. destruct (rev a) as [|y r] eqn:R.
  - assert (a = []) by (rewrite <- (rev_involutive a), R; reflexivity). subst a.
    cbn [app] in *. cbn [seg] in S. destruct S as (F & cn' & C' & S).
    replace cn' with cn in * by congruence.
    cbn [write].
    destruct (modify_changes h p pn (with_first (nnext cn)) P eq_refl) as (h1 & M1 & C1).
    rewrite M1. cbn [bind].
    destruct (changes_some _ _ _ c cn C1 C) as (cn1 & L1 & _).
    destruct (modify_changes h1 c cn1 (with_next None) L1 eq_refl) as (h2 & M2 & C2).
    exists h2. split; [exact M2|].
    assert (CC : changes h h2 (fun m a b => b =
        Node (ndata a) (nparent a) (if Nat.eqb m p then nnext cn else nfirst a)
             (if Nat.eqb m c then None else nnext a))).
    { eapply changes_trans; [exact C1|exact C2|]. intros m u v w -> ->. cbn beta.
      destruct u. destruct (Nat.eqb m c), (Nat.eqb m p); reflexivity. }
    eapply changes_weaken; [exact CC|]. intros m u v Lu Lv ->. cbn [nparent nfirst nnext].
    split; [reflexivity|]. split; [intros H; apply Nat.eqb_neq in H; rewrite H; reflexivity|].
    split.
    { intros H. destruct (Nat.eqb_spec m c) as [->|]; [|reflexivity].
      exfalso. apply H. left. reflexivity. }
    split; [intros ->; rewrite Nat.eqb_refl; reflexivity|].
    intros ->. rewrite Nat.eqb_refl. eapply seg_ext; [|exact S].
    intros d nd J Ld. destruct (changes_some _ _ _ d nd CC Ld) as (nd' & Ld' & _ & ->).
    eexists. split; [exact Ld'|]. cbn [nnext].
    destruct (Nat.eqb_spec d c) as [->|]; [contradiction|reflexivity].
  - assert (Ea : a = rev r ++ [y]) by (rewrite <- (rev_involutive a), R; reflexivity).
    set (a' := rev r) in *. clearbody a'. subst a. clear R.
    rewrite <- app_assoc in S. cbn [app] in S.
    apply seg_app in S as (z & S1 & S2). cbn [seg] in S2.
    destruct S2 as (-> & yn & Y & Yc & cn' & C' & S3).
    replace cn' with cn in * by congruence. clear cn'.
    assert (Nyc : y <> c).
    { intros ->. apply Nca. apply in_or_app. right. left. reflexivity. }
    cbn [write].
    destruct (modify_changes h y yn (with_next (nnext cn)) Y eq_refl) as (h1 & M1 & C1).
    rewrite M1. cbn [bind].
    destruct (changes_some _ _ _ c cn C1 C) as (cn1 & L1 & _).
    destruct (modify_changes h1 c cn1 (with_next None) L1 eq_refl) as (h2 & M2 & C2).
    exists h2. split; [exact M2|].
    assert (CC : changes h h2 (fun m a b => b =
        Node (ndata a) (nparent a) (nfirst a)
             (if Nat.eqb m c then None else if Nat.eqb m y then nnext cn else nnext a))).
    { eapply changes_trans; [exact C1|exact C2|]. intros m u v w -> ->. cbn beta.
      destruct u. destruct (Nat.eqb m c), (Nat.eqb m y); reflexivity. }
    eapply changes_weaken; [exact CC|]. intros m u v Lu Lv ->. cbn [nparent nfirst nnext].
    split; [reflexivity|]. split; [reflexivity|]. split.
    { intros H. destruct (Nat.eqb_spec m c) as [->|].
      - exfalso. apply H. apply in_or_app. right. left. reflexivity.
      - destruct (Nat.eqb_spec m y) as [->|]; [|reflexivity].
        exfalso. apply H. apply in_or_app. left. apply in_or_app. right. left. reflexivity. }
    split; [intros ->; rewrite Nat.eqb_refl; reflexivity|].
    intros ->.
    replace u with pn by congruence. rewrite <- app_assoc. cbn [app]. apply seg_app. exists (Some y).
    assert (Nd : NoDup (a' ++ y :: b)) by (rewrite <- app_assoc in ND; exact ND).
    pose proof (NoDup_remove_2 _ _ _ Nd) as Ny.
    split.
    + eapply seg_ext; [|exact S1].
      intros d nd J Ld. destruct (changes_some _ _ _ d nd CC Ld) as (nd' & Ld' & _ & ->).
      eexists. split; [exact Ld'|]. cbn [nnext].
      destruct (Nat.eqb_spec d c) as [->|].
      { exfalso. apply Nca. apply in_or_app. auto. }
      destruct (Nat.eqb_spec d y) as [->|]; [|reflexivity].
      exfalso. apply Ny. apply in_or_app. auto.
    + cbn [seg]. split; [reflexivity|].
      destruct (changes_some _ _ _ y yn CC Y) as (yn' & Y' & _ & Ey).
      exists yn'. split; [exact Y'|]. rewrite Ey. cbn [nnext].
      apply Nat.eqb_neq in Nyc. rewrite Nyc, Nat.eqb_refl.
      eapply seg_ext; [|exact S3].
      intros d nd J Ld. destruct (changes_some _ _ _ d nd CC Ld) as (nd' & Ld' & _ & ->).
      eexists. split; [exact Ld'|]. cbn [nnext].
      destruct (Nat.eqb_spec d c) as [->|]; [contradiction|].
      destruct (Nat.eqb_spec d y) as [->|]; [|reflexivity].
      exfalso. apply Ny. apply in_or_app. auto.
Qed.

(** ** Taking a node out of its list and putting it into another *)

Lemma detach_ok (X : nat -> Prop) h K c nd :
  inv X h K -> lk h c = Some nd -> ~ X c ->
  exists h1,
    match nparent nd with None => Ok h | Some p => deregister_child h p c end = Ok h1 /\
    inv (fun m => X m \/ m = c) h1 (fun q => remove Nat.eq_dec c (K q)) /\
    changes h h1 (fun m a b => nparent b = nparent a).
Proof.
  intros V C NX.
  destruct (nparent nd) as [p|] eqn:Ep.
  - destruct (inv_up X h K V c nd p C NX Ep) as ((pn & P) & I).
    pose proof (inv_chain X h K V p pn P) as S.
    pose proof (inv_nodup X h K V p pn P) as N.
    destruct (dereg_ok h p pn c nd (K p) P C S N I) as (h1 & R & CH).
    exists h1. split; [exact R|]. split.
    2:{ eapply changes_weaken; [exact CH|]. intros m a b _ _ H. bt. }
    assert (Only : forall q qn, lk h q = Some qn -> q <> p -> ~ In c (K q)).
    { intros q qn Q H J. apply H. exact (inv_only X h K c nd p q qn V C Ep Q J). }
    constructor.
    + intros q b Q. destruct (changes_back _ _ _ q b CH Q) as (a & Qa & _ & E1 & E2 & E3 & E4 & E5).
      destruct (Nat.eq_dec q p) as [->|H]; [apply E5; reflexivity|].
      rewrite E2 by exact H. rewrite notin_remove by (eapply Only; eassumption).
      eapply seg_ext; [|exact (inv_chain X h K V q a Qa)].
      intros d dn J Ld. destruct (changes_some _ _ _ d dn CH Ld) as (dn' & Ld' & _ & F1 & F2 & F3 & F4 & F5).
      exists dn'. split; [exact Ld'|]. apply F3.
      intros J'. apply H.
      destruct (inv_down X h K V p pn d P J') as (_ & e & Le & Pe).
      exact (inv_only X h K d dn p q a V Ld ltac:(congruence) Qa J).
    + intros q b Q. destruct (changes_back _ _ _ q b CH Q) as (a & Qa & _).
      apply NoDup_remove_nat. exact (inv_nodup X h K V q a Qa).
    + intros q b Q H. destruct (changes_back _ _ _ q b CH Q) as (a & Qa & _ & E1 & E2 & E3 & E4 & E5).
      destruct (Nat.eq_dec q c) as [->|Hc]; [apply E4; reflexivity|].
      assert (H' : nparent a = None \/ X q) by (rewrite <- E1; destruct H as [H|[H|H]]; auto; contradiction).
      rewrite E3; [exact (inv_root X h K V q a Qa H')|].
      intros J. destruct (inv_down X h K V p pn q P J) as (J1 & e & Le & Pe).
      destruct H' as [H'|H']; [congruence|contradiction].
    + intros q b r Q H Hr. destruct (changes_back _ _ _ q b CH Q) as (a & Qa & _ & E1 & _).
      rewrite E1 in Hr.
      destruct (inv_up X h K V q a r Qa (fun z => H (or_introl z)) Hr) as ((rn & Lr) & J).
      split.
      * destruct (changes_some _ _ _ r rn CH Lr) as (rn' & Lr' & _). eauto.
      * apply in_in_remove; [intros Eq; apply H; right; exact Eq|exact J].
    + intros q b d Q J. apply in_remove in J as [J Jd].
      destruct (changes_back _ _ _ q b CH Q) as (a & Qa & _).
      destruct (inv_down X h K V q a d Qa J) as (J1 & dn & Ld & Pd).
      split; [bt|].
      destruct (changes_some _ _ _ d dn CH Ld) as (dn' & Ld' & _ & E & _).
      exists dn'. split; [exact Ld'|congruence].
  - exists h. split; [reflexivity|]. split; [|apply changes_refl; auto].
    assert (Never : forall q qn, lk h q = Some qn -> ~ In c (K q)).
    { intros q qn Q J. destruct (inv_down X h K V q qn c Q J) as (_ & cn & L & E). congruence. }
    constructor.
    + intros q b Q. rewrite notin_remove by (eapply Never; eassumption).
      exact (inv_chain X h K V q b Q).
    + intros q b Q. apply NoDup_remove_nat. exact (inv_nodup X h K V q b Q).
    + intros q b Q H. apply (inv_root X h K V q b Q).
      destruct H as [H|[H| ->]]; auto. left. congruence.
    + intros q b r Q H Hr.
      destruct (inv_up X h K V q b r Q (fun z => H (or_introl z)) Hr) as (L & J).
      split; [exact L|]. apply in_in_remove; [intros Eq; apply H; right; exact Eq|exact J].
    + intros q b d Q J. apply in_remove in J as [J Jd].
      destruct (inv_down X h K V q b d Q J) as (J1 & L). split; [bt|exact L].
Qed.

Lemma attach_none (X : nat -> Prop) h K c nd :
  inv (fun m => X m \/ m = c) h K -> lk h c = Some nd -> nparent nd = None -> inv X h K.
Proof.
  intros V C Ec. constructor.
  - apply (inv_chain _ _ _ V).
  - apply (inv_nodup _ _ _ V).
  - intros q b Q H. apply (inv_root _ _ _ V q b Q). bt.
  - intros q b r Q H Hr. apply (inv_up _ _ _ V q b r Q); [|exact Hr].
    intros [H'| ->]; [contradiction|]. congruence.
  - intros q b d Q J. destruct (inv_down _ _ _ V q b d Q J) as (J1 & L). split; [bt|exact L].
Qed.

Definition add_kid (K : nat -> list nat) (p c : nat) : nat -> list nat :=
  fun q => if Nat.eqb q p then c :: K q else K q.

Lemma attach_some (X : nat -> Prop) h K c nd p pn :
  inv (fun m => X m \/ m = c) h K -> lk h c = Some nd -> nparent nd = Some p ->
  ~ X c -> lk h p = Some pn ->
  exists h', register_child h p c = Ok h' /\ inv X h' (add_kid K p c) /\
    changes h h' (fun m a b => nparent b = nparent a).
Proof.
  intros V C Ec NX P.
  destruct (register_ok h p c pn nd P C) as (h' & R & CH).
  exists h'. split; [exact R|]. split.
  2:{ eapply changes_weaken; [exact CH|]. intros m a b _ _ H. bt. }
  assert (Never : forall q qn, lk h q = Some qn -> ~ In c (K q)).
  { intros q qn Q J. destruct (inv_down _ _ _ V q qn c Q J) as (J' & _). bt. }
  assert (Keep : forall q qn, lk h q = Some qn -> forall o, seg h o (K q) None -> seg h' o (K q) None).
  { intros q qn Q o S. eapply seg_ext; [|exact S].
    intros d dn J Ld. destruct (changes_some _ _ _ d dn CH Ld) as (dn' & Ld' & _ & F1 & F2 & F3).
    exists dn'. split; [exact Ld'|]. rewrite F3.
    destruct (Nat.eqb_spec d c) as [->|]; [|reflexivity]. exfalso. exact (Never q qn Q J). }
  constructor; unfold add_kid.
  - intros q b Q. destruct (changes_back _ _ _ q b CH Q) as (a & Qa & _ & E1 & E2 & E3).
    rewrite E2. destruct (Nat.eqb_spec q p) as [->|H].
    + replace a with pn in * by congruence.
      cbn [seg]. split; [reflexivity|].
      destruct (changes_some _ _ _ c nd CH C) as (cn' & C' & _ & F1 & F2 & F3).
      exists cn'. split; [exact C'|]. rewrite F3, Nat.eqb_refl.
      apply (Keep p pn P). exact (inv_chain _ _ _ V p pn P).
    + apply (Keep q a Qa). exact (inv_chain _ _ _ V q a Qa).
  - intros q b Q. destruct (changes_back _ _ _ q b CH Q) as (a & Qa & _).
    pose proof (inv_nodup _ _ _ V q a Qa) as N.
    destruct (Nat.eqb q p); [|exact N]. constructor; [|exact N]. eapply Never; eassumption.
  - intros q b Q H. destruct (changes_back _ _ _ q b CH Q) as (a & Qa & _ & E1 & E2 & E3).
    rewrite E3. destruct (Nat.eqb_spec q c) as [->|Hc].
    + exfalso. rewrite E1 in H. destruct H as [H|H]; [congruence|contradiction].
    + apply (inv_root _ _ _ V q a Qa). rewrite <- E1. bt.
  - intros q b r Q H Hr. destruct (changes_back _ _ _ q b CH Q) as (a & Qa & _ & E1 & _).
    rewrite E1 in Hr. destruct (Nat.eq_dec q c) as [->|Hc].
    + assert (r = p) by congruence. subst r. split.
      * destruct (changes_some _ _ _ p pn CH P) as (pn' & P' & _). eauto.
      * rewrite Nat.eqb_refl. left. reflexivity.
    + destruct (inv_up _ _ _ V q a r Qa ltac:(bt) Hr) as ((rn & Lr) & J). split.
      * destruct (changes_some _ _ _ r rn CH Lr) as (rn' & Lr' & _). eauto.
      * destruct (Nat.eqb r p); [right|]; exact J.
  - intros q b d Q J. destruct (changes_back _ _ _ q b CH Q) as (a & Qa & _).
    assert (J' : In d (K q) \/ (q = p /\ d = c)).
    { destruct (Nat.eqb_spec q p) as [->|]; [|auto]. destruct J as [<-|J]; auto. }
    destruct J' as [J'|[-> ->]].
    + destruct (inv_down _ _ _ V q a d Qa J') as (J1 & dn & Ld & Pd).
      split; [bt|]. destruct (changes_some _ _ _ d dn CH Ld) as (dn' & Ld' & _ & F & _).
      exists dn'. split; [exact Ld'|congruence].
    + split; [exact NX|].
      destruct (changes_some _ _ _ c nd CH C) as (cn' & C' & _ & F1 & _).
      exists cn'. split; [exact C'|congruence].
Qed.

(** Changing the parent of a detached node. *)
Lemma reparent_ok (X : nat -> Prop) h K c nd p :
  inv (fun m => X m \/ m = c) h K -> lk h c = Some nd ->
  exists h', modify h c (with_parent p) = Ok h' /\
    inv (fun m => X m \/ m = c) h' K /\
    changes h h' (fun m a b => nparent b = if Nat.eqb m c then p else nparent a).
Proof.
  intros V C.
  destruct (modify_changes h c nd (with_parent p) C eq_refl) as (h' & M & CH).
  exists h'. split; [exact M|]. split.
  2:{ eapply changes_weaken; [exact CH|]. intros m a b _ _ ->. destruct (Nat.eqb m c); reflexivity. }
  assert (Same : forall m b, lk h' m = Some b -> exists a, lk h m = Some a /\
     nfirst b = nfirst a /\ nnext b = nnext a /\ (m <> c -> nparent b = nparent a)).
  { intros m b L. destruct (changes_back _ _ _ m b CH L) as (a & La & _ & ->).
    exists a. split; [exact La|]. destruct (Nat.eqb_spec m c); cbn; repeat split; auto; contradiction. }
  assert (Same' : forall m a, lk h m = Some a -> exists b, lk h' m = Some b /\
     nnext b = nnext a /\ (m <> c -> nparent b = nparent a)).
  { intros m a L. destruct (changes_some _ _ _ m a CH L) as (b & Lb & _ & ->).
    eexists. split; [exact Lb|]. destruct (Nat.eqb_spec m c); cbn; repeat split; auto; contradiction. }
  constructor.
  - intros q b Q. destruct (Same q b Q) as (a & Qa & E1 & E2 & E3). rewrite E1.
    eapply seg_ext; [|exact (inv_chain _ _ _ V q a Qa)].
    intros d dn _ Ld. destruct (Same' d dn Ld) as (dn' & Ld' & F & _). eauto.
  - intros q b Q. destruct (Same q b Q) as (a & Qa & _). exact (inv_nodup _ _ _ V q a Qa).
  - intros q b Q H. destruct (Same q b Q) as (a & Qa & E1 & E2 & E3). rewrite E2.
    apply (inv_root _ _ _ V q a Qa). destruct (Nat.eq_dec q c) as [->|Hc]; [auto|].
    rewrite <- E3 by exact Hc. exact H.
  - intros q b r Q H Hr. destruct (Same q b Q) as (a & Qa & E1 & E2 & E3).
    rewrite E3 in Hr by bt.
    destruct (inv_up _ _ _ V q a r Qa H Hr) as ((rn & Lr) & J). split; [|exact J].
    destruct (Same' r rn Lr) as (rn' & Lr' & _). eauto.
  - intros q b d Q J. destruct (Same q b Q) as (a & Qa & _).
    destruct (inv_down _ _ _ V q a d Qa J) as (J1 & dn & Ld & Pd). split; [exact J1|].
    destruct (Same' d dn Ld) as (dn' & Ld' & _ & F). exists dn'. split; [exact Ld'|].
    rewrite F; [exact Pd|bt].
Qed.

Definition moved (K : nat -> list nat) (c : nat) (p : option nat) : nat -> list nat :=
  fun q => if is p (Some q) then c :: remove Nat.eq_dec c (K q) else remove Nat.eq_dec c (K q).

Lemma inv_ext X h K K' :
  (forall q nd, lk h q = Some nd -> K q = K' q) -> inv X h K -> inv X h K'.
Proof.
  intros E V. constructor.
  - intros q b Q. rewrite <- (E q b Q). exact (inv_chain _ _ _ V q b Q).
  - intros q b Q. rewrite <- (E q b Q). exact (inv_nodup _ _ _ V q b Q).
  - apply (inv_root _ _ _ V).
  - intros q b r Q H Hr. destruct (inv_up _ _ _ V q b r Q H Hr) as ((rn & L) & J).
    split; [eauto|]. rewrite <- (E r rn L). exact J.
  - intros q b d Q J. rewrite <- (E q b Q) in J. exact (inv_down _ _ _ V q b d Q J).
Qed.

Lemma set_parent_ok (X : nat -> Prop) h K c nd p :
  inv X h K -> lk h c = Some nd -> ~ X c -> live_opt h p ->
  exists h', set_parent h c p = Ok h' /\ inv X h' (moved K c p) /\
    changes h h' (fun m a b => nparent b = if Nat.eqb m c then p else nparent a).
Proof.
  intros V C NX LP. unfold set_parent. rewrite get_lk, C. cbn [bind].
  destruct (detach_ok X h K c nd V C NX) as (h1 & R1 & V1 & C1).
  rewrite R1. cbn [bind].
  destruct (changes_some _ _ _ c nd C1 C) as (nd1 & L1 & _).
  destruct (reparent_ok X h1 _ c nd1 p V1 L1) as (h2 & R2 & V2 & C2).
  rewrite R2. cbn [bind].
  destruct (changes_some _ _ _ c nd1 C2 L1) as (nd2 & L2 & _ & P2).
  rewrite Nat.eqb_refl in P2.
  assert (C12 : changes h h2 (fun m a b => nparent b = if Nat.eqb m c then p else nparent a)).
  { eapply changes_trans; [exact C1|exact C2|]. cbn beta. intros m a b d E1 E2.
    rewrite E2. destruct (Nat.eqb m c); congruence. }
  destruct p as [p|].
  - apply live_lk in LP as [pn P].
    destruct (changes_some _ _ _ p pn C12 P) as (pn2 & P2' & _).
    destruct (attach_some X h2 _ c nd2 p pn2 V2 L2 P2 NX P2') as (h3 & R3 & V3 & C3).
    exists h3. split; [exact R3|]. split.
    + eapply inv_ext; [|exact V3]. intros q b _. unfold add_kid, moved, is.
      rewrite Nat.eqb_sym. reflexivity.
    + eapply changes_trans; [exact C12|exact C3|]. cbn beta. intros m a b d E1 E2. congruence.
  - exists h2. split; [reflexivity|]. split; [|exact C12].
    exact (attach_none X h2 _ c nd2 V2 L2 P2).
Qed.

(** ** New nodes *)

Lemma lk_app h nd m : lk (h ++ [Some nd]) m = if Nat.eqb m (length h) then Some nd else lk h m.
Proof.
  unfold lk. destruct (Nat.eqb_spec m (length h)) as [->|H].
  - rewrite nth_error_app2, Nat.sub_diag by lia. reflexivity.
  - destruct (Nat.lt_ge_cases m (length h)) as [L|L].
    + rewrite nth_error_app1 by exact L. reflexivity.
    + rewrite nth_error_app2 by exact L.
      replace (nth_error h m) with (@None (option (node D)))
        by (symmetry; apply nth_error_None; exact L).
      destruct (m - length h) as [|k] eqn:E; [lia|]. cbn [nth_error]. destruct k; reflexivity.
Qed.

Lemma lk_fresh h : lk h (length h) = None.
Proof.
  unfold lk. replace (nth_error h (length h)) with (@None (option (node D))); [reflexivity|].
  symmetry. apply nth_error_None. lia.
Qed.

Definition fresh_kids h (K : nat -> list nat) : nat -> list nat :=
  fun q => if Nat.eqb q (length h) then [] else K q.

Definition created h (K : nat -> list nat) (p : option nat) : nat -> list nat :=
  fun q => if is p (Some q) then length h :: fresh_kids h K q else fresh_kids h K q.

Lemma new_ok (X : nat -> Prop) h K p d :
  inv X h K -> live_opt h p -> ~ X (length h) ->
  exists h', new_node h p d = Ok (h', length h) /\
    length h' = S (length h) /\
    inv X h' (created h K p) /\
    (exists nd, lk h' (length h) = Some nd /\ ndata nd = d /\ nparent nd = p) /\
    (forall m, m <> length h ->
       match lk h m, lk h' m with
       | Some a, Some b => ndata b = ndata a /\ nparent b = nparent a
       | None, None => True
       | _, _ => False
       end).
Proof.
  intros V LP NX. unfold new_node.
  set (c := length h). set (nd := Node d p None None). set (h1 := h ++ [Some nd]).
  assert (L : forall m, lk h1 m = if Nat.eqb m c then Some nd else lk h m) by (intros; apply lk_app).
  assert (Lc : lk h1 c = Some nd) by (rewrite L, Nat.eqb_refl; reflexivity).
  assert (Old : forall m a, lk h m = Some a -> lk h1 m = Some a /\ m <> c).
  { intros m a La. pose proof (lk_lt _ _ _ La). rewrite L.
    assert (m <> c) by (unfold c; lia). apply Nat.eqb_neq in H0 as E. rewrite E. auto. }
  assert (V1 : inv (fun m => X m \/ m = c) h1 (fresh_kids h K)).
  { constructor; unfold fresh_kids; fold c.
    - intros q b Q. rewrite L in Q. destruct (Nat.eqb_spec q c) as [->|Hq].
      + injection Q as <-. reflexivity.
      + eapply seg_ext; [|exact (inv_chain X h K V q b Q)].
        intros e en _ Le. exists en. split; [apply Old; exact Le|reflexivity].
    - intros q b Q. rewrite L in Q. destruct (Nat.eqb_spec q c) as [->|Hq]; [constructor|].
      exact (inv_nodup X h K V q b Q).
    - intros q b Q H. rewrite L in Q. destruct (Nat.eqb_spec q c) as [->|Hq].
      + injection Q as <-. reflexivity.
      + apply (inv_root X h K V q b Q). bt.
    - intros q b r Q H Hr. rewrite L in Q. destruct (Nat.eqb_spec q c) as [->|Hq]; [bt|].
      destruct (inv_up X h K V q b r Q (fun z => H (or_introl z)) Hr) as ((rn & Lr) & J).
      destruct (Old r rn Lr) as [Lr' Nr]. apply Nat.eqb_neq in Nr. rewrite Nr. eauto.
    - intros q b e Q J. rewrite L in Q. destruct (Nat.eqb_spec q c) as [->|Hq]; [destruct J|].
      destruct (inv_down X h K V q b e Q J) as (J1 & en & Le & Pe).
      destruct (Old e en Le) as [Le' Ne]. split; [bt|]. eauto. }
  assert (Len : length h1 = S (length h)) by (subst h1; rewrite app_length; cbn [length]; lia).
  destruct p as [p|].
  - apply live_lk in LP as [pn P]. destruct (Old p pn P) as [P1 Np].
    destruct (attach_some X h1 _ c nd p pn V1 Lc eq_refl NX P1) as (h2 & R & V2 & CH).
    rewrite R. cbn [bind]. exists h2. split; [reflexivity|].
    split; [destruct CH as [E _]; etransitivity; [exact E|exact Len]|]. split; [|split].
    + eapply inv_ext; [|exact V2]. intros q b _. unfold add_kid, created, is.
      rewrite Nat.eqb_sym. reflexivity.
    + destruct (changes_some _ _ _ c nd CH Lc) as (nd' & L' & E1 & E2). exists nd'. auto.
    + intros m Hm. destruct CH as [_ CH]. specialize (CH m). rewrite L in CH.
      apply Nat.eqb_neq in Hm. rewrite Hm in CH. exact CH.
  - exists h1. split; [reflexivity|]. split; [exact Len|]. split; [|split].
    + eapply inv_ext; [|exact (attach_none X h1 _ c nd V1 Lc eq_refl)]. reflexivity.
    + exists nd. auto.
    + intros m Hm. rewrite L. apply Nat.eqb_neq in Hm. rewrite Hm.
      destruct (lk h m); auto.
Qed.

(** ** Destruction *)

Lemma orphan_ok n : forall l h K nd fuel,
  inv (eq n) h K -> lk h n = Some nd -> K n = l -> length l < fuel ->
  exists h' K', orphan_children fuel h n = Ok h' /\ inv (eq n) h' K' /\ K' n = [] /\
    changes h h' (fun m a b => nparent b = if in_dec Nat.eq_dec m l then None else nparent a) /\
    (forall q qn, lk h q = Some qn -> q <> n -> K' q = K q).
Proof.
  induction l as [|c l IH]; intros h K nd fuel V L El F; cbn [length] in F;
    (destruct fuel as [|fuel]; [lia|]); cbn [orphan_children]; rewrite get_lk, L; cbn [bind];
    pose proof (inv_chain _ _ _ V n nd L) as S; rewrite El in S; cbn [seg] in S.
  - rewrite S. exists h, K. split; [reflexivity|]. split; [exact V|]. split; [exact El|].
    split; [|auto]. apply changes_refl. reflexivity.
  - destruct S as (-> & cn & Lc & S).
    assert (J : In c (K n)) by (rewrite El; left; reflexivity).
    destruct (inv_down _ _ _ V n nd c L J) as (NX & cn' & Lc' & Pc).
    replace cn' with cn in * by congruence.
    destruct (set_parent_ok (eq n) h K c cn None V Lc NX I) as (h1 & R & V1 & C1).
    rewrite R. cbn [bind].
    destruct (changes_some _ _ _ n nd C1 L) as (nd1 & L1 & _).
    pose proof (inv_nodup _ _ _ V n nd L) as ND. rewrite El in ND.
    assert (E1 : moved K c None n = l).
    { unfold moved, is. rewrite El. cbn [remove]. destruct (Nat.eq_dec c c); [|congruence].
      apply notin_remove. inversion ND; assumption. }
    destruct (IH h1 _ nd1 fuel V1 L1 E1 ltac:(lia)) as (h2 & K2 & R2 & V2 & E2 & C2 & U2).
    exists h2, K2. split; [exact R2|]. split; [exact V2|]. split; [exact E2|]. split.
    + eapply changes_trans; [exact C1|exact C2|]. cbn beta. intros m a b d P1 P2. rewrite P2.
      destruct (in_dec Nat.eq_dec m l) as [I1|I1], (in_dec Nat.eq_dec m (c :: l)) as [I2|I2];
        try reflexivity.
      * exfalso. apply I2. right. exact I1.
      * rewrite P1. destruct I2 as [<-|I2]; [rewrite Nat.eqb_refl; reflexivity|contradiction].
      * rewrite P1. destruct (Nat.eqb_spec m c) as [->|]; [|reflexivity].
        exfalso. apply I2. left. reflexivity.
    + intros q qn Q Hq. destruct (changes_some _ _ _ q qn C1 Q) as (qn1 & Q1 & _).
      rewrite (U2 q qn1 Q1 Hq). unfold moved, is. apply notin_remove.
      intros Jq. apply Hq. exact (inv_only _ h K c cn n q qn V Lc Pc Q Jq).
Qed.

Lemma destroy_ok h K n nd :
  inv (fun _ => False) h K -> lk h n = Some nd ->
  exists h', destroy h n = Ok h' /\ length h' = length h /\
    inv (fun _ => False) h' (fun q => remove Nat.eq_dec n (K q)) /\
    lk h' n = None /\
    (forall m, m <> n ->
       match lk h m, lk h' m with
       | Some a, Some b => ndata b = ndata a /\
           nparent b = (if is (nparent a) (Some n) then None else nparent a)
       | None, None => True
       | _, _ => False
       end).
Proof.
  intros V L. unfold destroy. rewrite get_lk, L. cbn [bind].
  destruct (detach_ok _ h K n nd V L (fun f => f)) as (h1 & R1 & V1 & C1).
  rewrite R1. cbn [bind].
  assert (V1' : inv (eq n) h1 (fun q => remove Nat.eq_dec n (K q))).
  { destruct V1 as [a b c d e]. constructor; auto.
    - intros q nq Q H. apply (c q nq Q). intuition.
    - intros q nq r Q H Hr. apply (d q nq r Q); [|exact Hr]. intros [[]|E]; auto.
    - intros q nq r Q H. destruct (e q nq r Q H) as (H1 & H2). split; [|exact H2].
      intros ->. bt. }
  destruct (changes_some _ _ _ n nd C1 L) as (nd1 & L1 & _).
  assert (F : length (remove Nat.eq_dec n (K n)) < S (length h1)).
  { pose proof (seg_length _ _ _ _ (inv_chain _ _ _ V1' n nd1 L1) (inv_nodup _ _ _ V1' n nd1 L1)). lia. }
  destruct (orphan_ok n _ h1 _ nd1 _ V1' L1 eq_refl F) as (h2 & K2 & R2 & V2 & E2 & C2 & U2).
  rewrite R2. cbn [bind]. exists (upd h2 n None). split; [reflexivity|].
  destruct (changes_some _ _ _ n nd1 C2 L1) as (nd2 & L2 & _).
  assert (C12 : changes h h2 (fun m a b => m <> n ->
      nparent b = if is (nparent a) (Some n) then None else nparent a)).
  { assert (T : changes h h2 (fun m a b => nparent b =
       if in_dec Nat.eq_dec m (remove Nat.eq_dec n (K n)) then None else nparent a)).
    { eapply changes_trans; [exact C1|exact C2|]. cbv beta. intros m a b d P1 P2. rewrite P2, P1. reflexivity. }
    eapply changes_weaken; [exact T|]. cbv beta. intros m a b La Lb P Hm. rewrite P.
    destruct (in_dec Nat.eq_dec m (remove Nat.eq_dec n (K n))) as [I1|I1].
    - apply in_remove in I1 as [I1 _].
      destruct (inv_down _ _ _ V n nd m L I1) as (_ & a' & La' & Pa).
      replace a' with a in Pa by congruence. rewrite Pa. cbn [is]. rewrite Nat.eqb_refl. reflexivity.
    - destruct (nparent a) as [q|] eqn:Ea; [|reflexivity]. cbn [is].
      destruct (Nat.eqb_spec q n) as [->|]; [|reflexivity].
      exfalso. apply I1. apply in_in_remove; [exact Hm|].
      apply (inv_up _ _ _ V m a n La (fun f => f) Ea). }
  assert (Ln : lk (upd h2 n None) n = None) by (apply lk_upd_eq; exact (lk_lt _ _ _ L2)).
  assert (Lm : forall m, m <> n -> lk (upd h2 n None) m = lk h2 m) by (intros; apply lk_upd_neq; assumption).
  assert (Lq : forall q b, lk (upd h2 n None) q = Some b -> q <> n /\ lk h2 q = Some b).
  { intros q b Q. destruct (Nat.eq_dec q n) as [->|H]; [congruence|]. rewrite Lm in Q by exact H. auto. }
  split; [rewrite upd_length; destruct C1, C2; congruence|]. split; [|split; [exact Ln|]].
  - apply (inv_ext _ _ K2).
    { intros q b Q. apply Lq in Q as [Hq Q].
      destruct (changes_back _ _ _ q b C2 Q) as (a & Qa & _). exact (U2 q a Qa Hq). }
    constructor.
    + intros q b Q. apply Lq in Q as [Hq Q].
      eapply seg_ext; [|exact (inv_chain _ _ _ V2 q b Q)].
      intros d dn J Ld. exists dn. split; [|reflexivity]. rewrite Lm; [exact Ld|].
      intros ->. destruct (inv_down _ _ _ V2 q b n Q J) as (X & _). apply X. reflexivity.
    + intros q b Q. apply Lq in Q as [Hq Q]. exact (inv_nodup _ _ _ V2 q b Q).
    + intros q b Q H. apply Lq in Q as [Hq Q]. apply (inv_root _ _ _ V2 q b Q). bt.
    + intros q b r Q _ Hr. apply Lq in Q as [Hq Q].
      destruct (inv_up _ _ _ V2 q b r Q (fun e => Hq (eq_sym e)) Hr) as ((rn & Lr) & J).
      split; [|exact J]. exists rn. rewrite Lm; [exact Lr|].
      intros ->. rewrite E2 in J. destruct J.
    + intros q b d Q J. apply Lq in Q as [Hq Q].
      destruct (inv_down _ _ _ V2 q b d Q J) as (X & dn & Ld & Pd).
      split; [auto|]. exists dn. split; [|exact Pd]. rewrite Lm; [exact Ld|].
      intros ->. apply X. reflexivity.
  - intros m Hm. rewrite Lm by exact Hm. destruct C12 as [_ C12]. specialize (C12 m).
    destruct (lk h m), (lk h2 m); bt.
Qed.

(** ** Writing the payload *)

Lemma set_data_ok (X : nat -> Prop) h K n nd d :
  inv X h K -> lk h n = Some nd ->
  exists h', set_data h n d = Ok h' /\ length h' = length h /\ inv X h' K /\
    lk h' n = Some (with_data d nd) /\ forall m, m <> n -> lk h' m = lk h m.
Proof.
  intros V L. destruct (modify_ok h n nd (with_data d) L) as (h' & E & Len & Ln & Lm).
  exists h'. split; [exact E|]. split; [exact Len|]. split; [|auto].
  assert (B : forall m b, lk h' m = Some b -> exists a, lk h m = Some a /\ nparent b = nparent a /\
             nfirst b = nfirst a /\ nnext b = nnext a).
  { intros m b Lb. destruct (Nat.eq_dec m n) as [->|H].
    - rewrite Ln in Lb. injection Lb as <-. exists nd. auto.
    - rewrite Lm in Lb by exact H. exists b. auto. }
  assert (F : forall m a, lk h m = Some a -> exists b, lk h' m = Some b /\ nparent b = nparent a /\
             nfirst b = nfirst a /\ nnext b = nnext a).
  { intros m a La. destruct (Nat.eq_dec m n) as [->|H].
    - rewrite L in La. injection La as <-. exists (with_data d nd). auto.
    - exists a. rewrite Lm by exact H. auto. }
  constructor.
  - intros p b Lb. destruct (B p b Lb) as (a & La & _ & -> & _).
    eapply seg_ext; [|exact (inv_chain _ _ _ V p a La)]. intros c cn _ Lc.
    destruct (F c cn Lc) as (b' & Lb' & _ & _ & E'). exists b'. auto.
  - intros p b Lb. destruct (B p b Lb) as (a & La & _). exact (inv_nodup _ _ _ V p a La).
  - intros p b Lb H. destruct (B p b Lb) as (a & La & Ep & _ & ->). apply (inv_root _ _ _ V p a La). rewrite <- Ep. exact H.
  - intros p b q Lb H Hq. destruct (B p b Lb) as (a & La & Ep & _). rewrite Ep in Hq.
    destruct (inv_up _ _ _ V p a q La H Hq) as ((qn & Lq) & J). split; [|exact J].
    destruct (F q qn Lq) as (b' & Lb' & _). eauto.
  - intros p b c Lb J. destruct (B p b Lb) as (a & La & _).
    destruct (inv_down _ _ _ V p a c La J) as (H & cn & Lc & Pc). split; [exact H|].
    destruct (F c cn Lc) as (b' & Lb' & E' & _). exists b'. split; [exact Lb'|congruence].
Qed.

(** ** Histories *)

Definition good h := exists K, inv (fun _ => False) h K.

Lemma good_nil : good [].
Proof.
  exists (fun _ => []).
  assert (N : forall p, lk [] p = None) by (intros [|p]; reflexivity).
  constructor; intros p nd; rewrite N; discriminate.
Qed.

Lemma good_step h o : good h -> legal h o -> exists h', step h o = Ok h' /\ good h'.
Proof.
  intros (K & V) Lg. destruct o as [p d|n p|n|n d]; cbn [legal step] in *.
  - destruct (new_ok _ h K p d V Lg (fun f => f)) as (h' & R & _ & V' & _).
    exists h'. rewrite R. split; [reflexivity|]. eexists; exact V'.
  - destruct Lg as [Ln Lp]. apply live_lk in Ln as [nd L].
    destruct (set_parent_ok _ h K n nd p V L (fun f => f) Lp) as (h' & R & V' & _).
    exists h'. split; [exact R|]. eexists; exact V'.
  - apply live_lk in Lg as [nd L].
    destruct (destroy_ok h K n nd V L) as (h' & R & _ & V' & _).
    exists h'. split; [exact R|]. eexists; exact V'.
  - apply live_lk in Lg as [nd L].
    destruct (set_data_ok _ h K n nd d V L) as (h' & R & _ & V' & _).
    exists h'. split; [exact R|]. eexists; exact V'.
Qed.

Lemma reachable_good h : reachable h -> good h.
Proof.
  induction 1 as [|h o h' _ IH Lg R]; [apply good_nil|].
  destruct (good_step h o IH Lg) as (h1 & R1 & G). congruence.
Qed.

Lemma grown_reachable h : grown h -> reachable h.
Proof. induction 1; [constructor|econstructor; eassumption]. Qed.

Lemma parent_lk h n p : parent h n = Ok p <-> exists nd, lk h n = Some nd /\ nparent nd = p.
Proof.
  unfold parent. rewrite get_lk. destruct (lk h n) as [nd|]; cbn [bind].
  - split; [intros [= <-]; eauto|]. intros (nd' & [= <-] & <-). reflexivity.
  - split; [discriminate|]. intros (nd & [=] & _).
Qed.

(** ** Paths to the root *)

(** [path h n l]: [l] is [n], its parent, and so on up to the root. *)
Inductive path h : nat -> list nat -> Prop :=
| path_root n : parent h n = Ok None -> path h n [n]
| path_up n p l : parent h n = Ok (Some p) -> path h p l -> path h n (n :: l).

Lemma path_det h n l : path h n l -> forall l', path h n l' -> l = l'.
Proof.
  induction 1 as [n P|n p l P _ IH]; intros l' H; inversion H; subst; try congruence.
  f_equal. apply IH. congruence.
Qed.

Lemma path_head h n l : path h n l -> exists l', l = n :: l'.
Proof. inversion 1; eauto. Qed.

Lemma path_suffix h n l : path h n l -> forall m, In m l -> exists a l', l = a ++ l' /\ path h m l'.
Proof.
  induction 1 as [n P|n p l P H IH]; intros m I.
  - destruct I as [<-|[]]. exists [], [n]. split; [reflexivity|]. constructor; exact P.
  - destruct I as [<-|I].
    + exists [], (n :: l). split; [reflexivity|]. econstructor; eassumption.
    + destruct (IH m I) as (a & l' & -> & Q). exists (n :: a), l'. split; [reflexivity|exact Q].
Qed.

Lemma path_nodup h n l : path h n l -> NoDup l.
Proof.
  induction 1 as [n P|n p l P H IH]; [repeat constructor; auto|].
  constructor; [|exact IH]. intros I.
  destruct (path_suffix h p l H n I) as (a & l' & -> & Q).
  assert (E : n :: a ++ l' = l') by (apply (path_det h n); [econstructor; eassumption|exact Q]).
  apply (f_equal (@length nat)) in E. cbn [length] in E. rewrite app_length in E. lia.
Qed.

Lemma path_live h n l : path h n l -> forall m, In m l -> exists nd, lk h m = Some nd.
Proof.
  induction 1 as [n P|n p l P H IH]; intros m I.
  - destruct I as [<-|[]]. apply parent_lk in P as (nd & L & _). eauto.
  - destruct I as [<-|I]; [|auto]. apply parent_lk in P as (nd & L & _). eauto.
Qed.

Lemma path_length h n l : path h n l -> length l <= length h.
Proof.
  intros H. rewrite <- (seq_length (length h) 0).
  apply NoDup_incl_length; [exact (path_nodup h n l H)|].
  intros m I. destruct (path_live h n l H m I) as [nd L].
  apply in_seq. pose proof (lk_lt _ _ _ L). lia.
Qed.

Lemma path_above h n l : path h n l -> forall m, In m l <-> above h m n.
Proof.
  induction 1 as [n P|n p l P H IH]; intros m.
  - split.
    + intros [<-|[]]. constructor. apply parent_lk in P as (nd & L & _).
      apply live_lk. eauto.
    + intros A. inversion A as [x Lx|a q x Px Ax]; subst; [left; reflexivity|congruence].
  - split.
    + intros [<-|I].
      * constructor. apply parent_lk in P as (nd & L & _). apply live_lk. eauto.
      * econstructor; [exact P|]. apply IH. exact I.
    + intros A. inversion A as [x Lx|a q x Px Ax]; subst; [left; reflexivity|].
      right. apply IH. congruence.
Qed.

Lemma up_chain_path h n l : path h n l -> forall fuel, length l < fuel ->
  up_chain fuel h (Some n) = Ok l.
Proof.
  induction 1 as [n P|n p l P H IH]; intros fuel F; cbn [length] in F;
    (destruct fuel as [|fuel]; [lia|]); cbn [up_chain];
    apply parent_lk in P as (nd & L & E); rewrite get_lk, L; cbn [bind]; rewrite E.
  - destruct fuel; [lia|]. reflexivity.
  - rewrite IH by lia. reflexivity.
Qed.

Lemma ancestry_path h n l : path h n l -> ancestry h n = Ok (rev l).
Proof.
  intros H. unfold ancestry.
  rewrite (up_chain_path h n l H) by (pose proof (path_length h n l H); lia). reflexivity.
Qed.

Lemma root_path h n l : path h n l -> forall fuel, length l <= fuel ->
  exists r, root_loop fuel h n = Ok r /\ In r l /\ parent h r = Ok None.
Proof.
  induction 1 as [n P|n p l P H IH]; intros fuel F; cbn [length] in F;
    (destruct fuel as [|fuel]; [lia|]); cbn [root_loop].
  - exists n. pose proof P as P'. apply parent_lk in P' as (nd & L & E). rewrite get_lk, L. cbn [bind]. rewrite E.
    split; [reflexivity|]. split; [left; reflexivity|exact P].
  - apply parent_lk in P as (nd & L & E). rewrite get_lk, L. cbn [bind]. rewrite E.
    destruct (IH fuel ltac:(lia)) as (r & R & I & Q). exists r.
    split; [exact R|]. split; [right; exact I|exact Q].
Qed.

Lemma is_anc_path h this n l : path h n l -> forall fuel, length l < fuel ->
  exists b, is_ancestor_loop fuel h this (Some n) = Ok b /\
    (b = true <-> In this (tl l)).
Proof.
  induction 1 as [n P|n p l P H IH]; intros fuel F; cbn [length] in F;
    (destruct fuel as [|fuel]; [lia|]); cbn [is_ancestor_loop];
    apply parent_lk in P as (nd & L & E); rewrite get_lk, L; cbn [bind]; rewrite E; cbn [is tl].
  - destruct fuel; [lia|]. exists false. split; [reflexivity|]. split; [discriminate|intros []].
  - destruct (path_head h p l H) as (l' & ->).
    destruct (Nat.eqb_spec p this) as [->|Hp].
    + exists true. split; [reflexivity|]. split; [intros _; left; reflexivity|auto].
    + destruct (IH fuel ltac:(lia)) as (b & R & W). exists b. split; [exact R|].
      rewrite W. cbn [tl In]. split; [auto|intros [->|I]; [contradiction|exact I]].
Qed.

(** ** The binary search *)

Lemma mismatch_ok a1 a2 k : forall fuel base len,
  (forall i, i < k -> nth_error a1 i = nth_error a2 i) ->
  (forall i, k <= i < Nat.min (length a1) (length a2) -> nth_error a1 i <> nth_error a2 i) ->
  base <= k <= base + len -> base + len <= Nat.min (length a1) (length a2) ->
  len < fuel ->
  mismatch_loop fuel a1 a2 base len = Ok k.
Proof.
  induction fuel as [|fuel IH]; intros base len Eq Ne Hk Hl F; [lia|].
  cbn [mismatch_loop]. destruct (Nat.ltb_spec 0 len) as [P|P].
  - pose proof (Nat.div_lt len 2 ltac:(lia) ltac:(lia)) as Hh.
    set (half := len / 2) in *. clearbody half.
    destruct (nth_error a1 (base + half)) as [x|] eqn:E1.
    2:{ apply nth_error_None in E1. lia. }
    destruct (nth_error a2 (base + half)) as [y|] eqn:E2.
    2:{ apply nth_error_None in E2. lia. }
    destruct (Nat.eqb_spec x y) as [->|Hxy].
    + apply IH; auto; try lia.
      destruct (Nat.lt_ge_cases (base + half) k) as [Lt|Ge]; [lia|].
      exfalso. apply (Ne (base + half)); [lia|congruence].
    + apply IH; auto; try lia.
      destruct (Nat.lt_ge_cases (base + half) k) as [Lt|Ge]; [|lia].
      exfalso. specialize (Eq (base + half) Lt). congruence.
  - f_equal. lia.
Qed.

(** Two paths to roots, seen from the root, agree up to some point and from
    there on are different at every depth. *)
Fixpoint lcp (a b : list nat) : list nat :=
  match a, b with
  | x :: a', y :: b' => if Nat.eqb x y then x :: lcp a' b' else []
  | _, _ => []
  end.

Lemma lcp_pre a : forall b, exists a' b', a = lcp a b ++ a' /\ b = lcp a b ++ b' /\
  (forall x y u v, a' = x :: u -> b' = y :: v -> x <> y).
Proof.
  induction a as [|x a IH]; intros b.
  - exists [], b. cbn. repeat split. intros; discriminate.
  - destruct b as [|y b].
    + exists (x :: a), []. cbn. repeat split. intros; discriminate.
    + cbn [lcp]. destruct (Nat.eqb_spec x y) as [->|H].
      * destruct (IH b) as (a' & b' & E1 & E2 & N). exists a', b'.
        cbn [app]. repeat split; [congruence|congruence|exact N].
      * exists (x :: a), (y :: b). cbn [app]. repeat split.
        intros ? ? ? ? [= <- <-] [= <- <-]. exact H.
Qed.

(** A path read from the root: every prefix is the path of its last node. *)
Lemma path_prefix h n l : path h n l -> forall a x b, rev l = a ++ x :: b -> path h x (x :: rev a).
Proof.
  intros H a x b E.
  assert (El : l = rev b ++ x :: rev a).
  { rewrite <- (rev_involutive l), E, rev_app_distr. cbn [rev]. rewrite <- app_assoc. reflexivity. }
  clear E. revert n H El. generalize (rev b) as c. intros c. revert l.
  induction c as [|y c IH]; intros l n H E; cbn [app] in E; subst l.
  - inversion H; subst; auto. econstructor; eassumption.
  - inversion H; subst.
    + destruct c; discriminate.
    + eapply IH; [eassumption|reflexivity].
Qed.

Lemma nth_after_split (a b c : list nat) :
  (forall x y u v, b = x :: u -> c = y :: v -> x <> y) ->
  (forall i x, nth_error (a ++ b) i = Some x -> nth_error (a ++ c) i = Some x -> length a <= i ->
     forall j, j <= i -> exists y, nth_error (a ++ b) j = Some y /\ nth_error (a ++ c) j = Some y) ->
  forall i, length a <= i < Nat.min (length (a ++ b)) (length (a ++ c)) ->
    nth_error (a ++ b) i <> nth_error (a ++ c) i.
Proof.
  intros N P i Hi E.
  destruct (nth_error (a ++ b) i) as [x|] eqn:E1.
  2:{ apply nth_error_None in E1. lia. }
  destruct (P i x E1 (eq_sym E) ltac:(lia) (length a) ltac:(lia)) as (y & F1 & F2).
  rewrite nth_error_app2 in F1, F2 by lia. rewrite Nat.sub_diag in F1, F2.
  destruct b as [|u b]; [discriminate|]. destruct c as [|v c]; [discriminate|].
  cbn [nth_error] in F1, F2. apply (N u v b c eq_refl eq_refl). congruence.
Qed.

Lemma common_prefix_same h n m l1 l2 : path h n l1 -> path h m l2 ->
  forall i x, nth_error (rev l1) i = Some x -> nth_error (rev l2) i = Some x ->
  forall j, j <= i -> nth_error (rev l1) j = nth_error (rev l2) j.
Proof.
  intros H1 H2 i x E1 E2 j Hj.
  apply nth_error_split in E1 as (a1 & b1 & E1 & L1).
  apply nth_error_split in E2 as (a2 & b2 & E2 & L2).
  pose proof (path_prefix h n l1 H1 a1 x b1 E1) as P1.
  pose proof (path_prefix h m l2 H2 a2 x b2 E2) as P2.
  pose proof (path_det h x _ P1 _ P2) as E. injection E as E.
  assert (Ea : a1 = a2) by (rewrite <- (rev_involutive a1), E, rev_involutive; reflexivity).
  subst a2. rewrite E1, E2.
  destruct (Nat.eq_dec j (length a1)) as [->|Hn].
  - rewrite !nth_error_app2, Nat.sub_diag by lia. reflexivity.
  - rewrite !nth_error_app1 by lia. reflexivity.
Qed.

Lemma lca_index_path h this n l1 l2 : path h n l1 -> path h this l2 ->
  last_common_ancestor_index h this n = Ok (Z.of_nat (length (lcp (rev l1) (rev l2))) - 1)%Z.
Proof.
  intros H1 H2. unfold last_common_ancestor_index.
  rewrite (ancestry_path h n l1 H1), (ancestry_path h this l2 H2). cbn [bind].
  destruct (lcp_pre (rev l1) (rev l2)) as (a' & b' & E1 & E2 & N).
  set (c := lcp (rev l1) (rev l2)) in *.
  rewrite (mismatch_ok (rev l1) (rev l2) (length c)); [reflexivity| | | |lia|lia].
  - intros i Hi. rewrite E1, E2, !nth_error_app1 by exact Hi. reflexivity.
  - intros i Hi. rewrite E1, E2 in *. apply nth_after_split; [exact N| |exact Hi].
    intros k x F1 F2 _ j Hj. rewrite <- E1 in F1. rewrite <- E2 in F2.
    pose proof (common_prefix_same h n this l1 l2 H1 H2 k x F1 F2 j Hj) as S.
    rewrite <- E1, <- E2, <- S.
    destruct (nth_error (rev l1) j) as [y|] eqn:F; [eauto|].
    apply nth_error_None in F. assert (k < length (rev l1)) by (apply nth_error_Some; congruence). lia.
  - split; [lia|].
    assert (length (rev l1) = length c + length a') by (rewrite E1; apply app_length).
    assert (length (rev l2) = length c + length b') by (rewrite E2; apply app_length). lia.
Qed.

(** A common ancestor lies in the common prefix. *)
Lemma common_in_lcp h n m l1 l2 x : path h n l1 -> path h m l2 ->
  In x l1 -> In x l2 -> In x (lcp (rev l1) (rev l2)).
Proof.
  intros H1 H2 I1 I2.
  apply in_rev in I1, I2.
  apply in_split in I1 as (a1 & b1 & E1). apply in_split in I2 as (a2 & b2 & E2).
  pose proof (path_prefix h n l1 H1 a1 x b1 E1) as P1.
  pose proof (path_prefix h m l2 H2 a2 x b2 E2) as P2.
  pose proof (path_det h x _ P1 _ P2) as E. injection E as E.
  assert (Ea : a1 = a2) by (rewrite <- (rev_involutive a1), E, rev_involutive; reflexivity).
  subst a2. rewrite E1, E2. clear.
  induction a1 as [|y a IH]; cbn [app lcp]; rewrite Nat.eqb_refl; [left; reflexivity|right; exact IH].
Qed.

Lemma lca_path h this n l1 l2 : path h n l1 -> path h this l2 ->
  exists r, last_common_ancestor h this n = Ok r /\
    match r with
    | Some a => In a l1 /\ In a l2 /\
        (exists la, path h a la /\ forall b, In b l1 -> In b l2 -> In b la)
    | None => forall b, ~ (In b l1 /\ In b l2)
    end.
Proof.
  intros H1 H2. unfold last_common_ancestor. rewrite (lca_index_path h this n l1 l2 H1 H2).
  cbn [bind]. destruct (lcp_pre (rev l1) (rev l2)) as (a' & b' & E1 & E2 & N).
  pose proof (fun x => common_in_lcp h n this l1 l2 x H1 H2) as Com.
  set (c := lcp (rev l1) (rev l2)) in *.
  destruct (Z.leb_spec 0 (Z.of_nat (length c) - 1)) as [L|L].
  - rewrite (ancestry_path h this l2 H2). cbn [bind].
    destruct (rev c) as [|x r] eqn:R.
    { assert (c = []) by (rewrite <- (rev_involutive c), R; reflexivity). subst c. rewrite H in L. cbn in L. lia. }
    assert (Ec : c = rev r ++ [x]) by (rewrite <- (rev_involutive c), R; reflexivity).
    assert (Lc : length c = S (length r)) by (rewrite Ec, app_length, rev_length; cbn [length]; lia).
    replace (Z.to_nat (Z.of_nat (length c) - 1)) with (length (rev r)) by (rewrite rev_length; lia).
    assert (F : nth_error (rev l2) (length (rev r)) = Some x).
    { rewrite E2, Ec, <- app_assoc. cbn [app]. rewrite nth_error_app2, Nat.sub_diag by lia. reflexivity. }
    rewrite F. exists (Some x). split; [reflexivity|].
    split; [apply in_rev; rewrite E1, Ec; apply in_or_app; left; apply in_or_app; right; left; reflexivity|].
    split; [apply in_rev; rewrite E2, Ec; apply in_or_app; left; apply in_or_app; right; left; reflexivity|].
    exists (x :: rev (rev r)). split.
    + apply (path_prefix h this l2 H2 (rev r) x b'). rewrite E2, Ec, <- app_assoc. reflexivity.
    + intros b I1 I2. pose proof (Com b I1 I2) as I. rewrite Ec in I.
      rewrite rev_involutive. apply in_app_or in I as [I|[<-|[]]]; [right; apply in_rev; exact I|left; reflexivity].
  - exists None. split; [reflexivity|]. intros b [I1 I2].
    pose proof (Com b I1 I2) as I. destruct c; [destruct I|cbn [length] in L; lia].
Qed.

(** ** Nodes never moved below themselves have a path to a root *)

Lemma path_exists_step h o h' :
  good h -> legal h o -> no_cycle h o -> step h o = Ok h' ->
  (forall n, live h n -> exists l, path h n l) -> forall n, live h' n -> exists l, path h' n l.
Proof.
  intros (K & V) Lg NC R All. destruct o as [p d|c p|x|x d]; cbn [legal step no_cycle] in *.
  - destruct (new_ok _ h K p d V Lg (fun f => f)) as (h1 & R1 & _ & _ & (nd & Ln & _ & Pn) & Old).
    rewrite R1 in R. cbn [bind] in R. injection R as <-.
    assert (Par : forall m q, parent h m = Ok q -> parent h1 m = Ok q).
    { intros m q H. apply parent_lk in H as (a & La & <-). apply parent_lk.
      assert (m <> length h) by (pose proof (lk_lt _ _ _ La); lia).
      specialize (Old m H). rewrite La in Old. destruct (lk h1 m) as [b|]; [|destruct Old].
      exists b. bt. }
    assert (Pth : forall m l, path h m l -> path h1 m l).
    { induction 1; [constructor|econstructor]; eauto. }
    intros n L. destruct (Nat.eq_dec n (length h)) as [->|Hn].
    + destruct p as [p|].
      * destruct (All p Lg) as (l & H). exists (length h :: l).
        econstructor; [apply parent_lk; eauto|auto].
      * exists [length h]. constructor. apply parent_lk. eauto.
    + apply live_lk in L as (b & Lb). specialize (Old n Hn). rewrite Lb in Old.
      destruct (lk h n) as [a|] eqn:La; [|destruct Old].
      destruct (All n) as (l & H); [apply live_lk; eauto|]. exists l. auto.
  - destruct Lg as [Lc Lp]. apply live_lk in Lc as (nd & C).
    destruct (set_parent_ok _ h K c nd p V C (fun f => f) Lp) as (h1 & R1 & _ & CH).
    rewrite R1 in R. injection R as <-.
    assert (Par : forall m q, m <> c -> parent h m = Ok q -> parent h1 m = Ok q).
    { intros m q Hm H. apply parent_lk in H as (a & La & <-). apply parent_lk.
      destruct (changes_some _ _ _ m a CH La) as (b & Lb & _ & E). exists b. split; [exact Lb|].
      apply Nat.eqb_neq in Hm. rewrite Hm in E. exact E. }
    assert (Parc : parent h1 c = Ok p).
    { apply parent_lk. destruct (changes_some _ _ _ c nd CH C) as (b & Lb & _ & E). exists b.
      rewrite Nat.eqb_refl in E. auto. }
    assert (Avoid : forall m l, path h m l -> ~ In c l -> path h1 m l).
    { induction 1 as [m P|m q l P H IH]; intros N.
      - constructor. apply Par; [|exact P]. intros ->. apply N. left. reflexivity.
      - econstructor; [apply Par; [|exact P]|apply IH].
        + intros ->. apply N. left. reflexivity.
        + intros I. apply N. right. exact I. }
    assert (Pc : exists l, path h1 c l).
    { destruct p as [p|]; [|exists [c]; constructor; exact Parc].
      destruct (All p Lp) as (l & H). exists (c :: l). econstructor; [exact Parc|].
      apply Avoid; [exact H|]. intros I. apply NC. apply (path_above h p l H). exact I. }
    assert (Reach : forall m l, path h m l -> exists l', path h1 m l').
    { induction 1 as [m P|m q l P H IH]; (destruct (Nat.eq_dec m c) as [->|Hm]; [exact Pc|]).
      - exists [m]. constructor. apply Par; assumption.
      - destruct IH as (l' & Hl). exists (m :: l'). econstructor; [apply Par; eassumption|exact Hl]. }
    intros n L. apply live_lk in L as (b & Lb).
    destruct (changes_back _ _ _ n b CH Lb) as (a & La & _).
    destruct (All n) as (l & H); [apply live_lk; eauto|]. exact (Reach n l H).
  - apply live_lk in Lg as (nd & L).
    destruct (destroy_ok h K x nd V L) as (h1 & R1 & _ & _ & Lx & Old).
    rewrite R1 in R. injection R as <-.
    assert (Reach : forall m l, path h m l -> m <> x -> exists l', path h1 m l').
    { induction 1 as [m P|m q l P H IH]; intros Hm;
        apply parent_lk in P as (a & La & Pa); specialize (Old m Hm); rewrite La in Old;
        (destruct (lk h1 m) as [b|] eqn:Lb; [|destruct Old]); destruct Old as [_ E]; rewrite Pa in E.
      - exists [m]. constructor. apply parent_lk. eauto.
      - cbn [is] in E. destruct (Nat.eqb_spec q x) as [Hq|Hq].
        + exists [m]. constructor. apply parent_lk. eauto.
        + destruct (IH Hq) as (l' & Hl). exists (m :: l'). econstructor; [apply parent_lk; eauto|exact Hl]. }
    intros n Ln. apply live_lk in Ln as (b & Lb).
    assert (Hn : n <> x) by congruence.
    pose proof (Old n Hn) as O. rewrite Lb in O. destruct (lk h n) as [a|] eqn:La; [|destruct O].
    destruct (All n) as (l & H); [apply live_lk; eauto|]. exact (Reach n l H Hn).
  - apply live_lk in Lg as (nd & L).
    destruct (set_data_ok _ h K x nd d V L) as (h1 & R1 & _ & _ & Lx & Lm).
    rewrite R1 in R. injection R as <-.
    assert (Par : forall m, parent h1 m = parent h m).
    { intros m. unfold parent. rewrite !get_lk. destruct (Nat.eq_dec m x) as [->|H].
      - rewrite Lx, L. reflexivity.
      - rewrite Lm by exact H. reflexivity. }
    assert (Pth : forall m l, path h m l -> path h1 m l).
    { induction 1; [constructor|econstructor]; rewrite ?Par; eauto. }
    intros n (b & Lb). destruct (All n) as (l & H); [|eauto].
    destruct (Nat.eq_dec n x) as [->|Hn]; [apply live_lk; eauto|].
    apply live_lk. exists b. rewrite <- Lm by exact Hn. apply get_ok. exact Lb.
Qed.

Lemma grown_path h : grown h -> forall n, live h n -> exists l, path h n l.
Proof.
  induction 1 as [|h o h' G IH Lg NC R].
  - intros n L. apply live_lk in L as (nd & L). destruct n; discriminate.
  - eapply path_exists_step; try eassumption. apply reachable_good, grown_reachable, G.
Qed.
End Proofs.
