From Coq Require Import ZArith List Lia Bool Permutation.
From Verif Require Import Lib.Base Cache.Model Cache.Dll Cache.Spec.
Import ListNotations.
Local Open Scope Z_scope.

(* ---- pointers stay below the number of lines ever created ---- *)
Definition okp (c : nat) (p : ptr) : Prop := match p with Some x => (x < c)%nat | None => True end.
Definition bnd (c : nat) (p : ptrs) : Prop :=
  okp c (fv p) /\ okp c (lv p) /\ okp c (fi p) /\
  forall x, okp c (nx p x) /\ okp c (pv p x) /\ ((c <= x)%nat -> nx p x = None /\ pv p x = None).

Lemma bnd_set_nx c p a v : bnd c p -> okp c a -> okp c v -> bnd c (set_nx p a v).
Proof.
  intros (H1 & H2 & H3 & H4) Ha Hv. destruct a as [a|]; [|repeat split; auto; apply H4; auto]. simpl in Ha.
  unfold set_nx. split; [|split; [|split]]; auto. intros x. cbn [nx pv]. unfold upd. destruct (H4 x) as (A & B & C).
  destruct (Nat.eqb_spec x a); subst; split; auto; split; auto; intros; lia.
Qed.
Lemma bnd_set_pv c p a v : bnd c p -> okp c a -> okp c v -> bnd c (set_pv p a v).
Proof.
  intros (H1 & H2 & H3 & H4) Ha Hv. destruct a as [a|]; [|repeat split; auto; apply H4; auto]. simpl in Ha.
  unfold set_pv. split; [|split; [|split]]; auto. intros x. cbn [nx pv]. unfold upd. destruct (H4 x) as (A & B & C).
  destruct (Nat.eqb_spec x a); subst; split; auto; split; auto; intros; lia.
Qed.
Lemma bnd_nx c p x : bnd c p -> okp c (nx p x). Proof. intros (_ & _ & _ & H). apply H. Qed.
Lemma bnd_pv c p x : bnd c p -> okp c (pv p x). Proof. intros (_ & _ & _ & H). apply H. Qed.
Lemma bnd_fv c p : bnd c p -> okp c (fv p). Proof. intros H; apply H. Qed.
Lemma bnd_lv c p : bnd c p -> okp c (lv p). Proof. intros H; apply H. Qed.
Lemma bnd_fi c p : bnd c p -> okp c (fi p). Proof. intros H; apply H. Qed.
Lemma bnd_set_fv c p v : bnd c p -> okp c v -> bnd c (set_fv p v).
Proof. intros (H1 & H2 & H3 & H4) Hv. repeat split; auto; apply H4; auto. Qed.
Lemma bnd_set_lv c p v : bnd c p -> okp c v -> bnd c (set_lv p v).
Proof. intros (H1 & H2 & H3 & H4) Hv. repeat split; auto; apply H4; auto. Qed.
Lemma bnd_set_fi c p v : bnd c p -> okp c v -> bnd c (set_fi p v).
Proof. intros (H1 & H2 & H3 & H4) Hv. repeat split; auto; apply H4; auto. Qed.
Local Hint Resolve bnd_nx bnd_pv bnd_fv bnd_lv bnd_fi bnd_set_nx bnd_set_pv bnd_set_fv bnd_set_lv bnd_set_fi : bnd.
Lemma bnd_if (b : bool) c p q : bnd c p -> bnd c q -> bnd c (if b then p else q).
Proof. destruct b; auto. Qed.
Lemma bnd_extract c p l : bnd c p -> bnd c (extract p l).
Proof. intros. unfold extract. cbn zeta. apply bnd_set_nx; eauto with bnd. Qed.
Local Hint Resolve bnd_extract bnd_if : bnd.
Lemma okp_some c l : (l < c)%nat -> okp c (Some l). Proof. auto. Qed.
Lemma okp_none c : okp c None. Proof. exact I. Qed.
Local Hint Resolve okp_some okp_none : bnd.

Lemma bnd_validate c p l : bnd c p -> (l < c)%nat -> bnd c (c_validate p l).
Proof.
  intros H Hl. unfold c_validate. destruct (peq (fv p) l); auto. cbn zeta.
  set (a := if peq (lv p) l then _ else _). assert (Ha : bnd c a) by (unfold a; auto with bnd).
  set (b := if peq (fi a) l then _ else _). assert (Hb : bnd c b) by (unfold b; auto with bnd).
  set (d := extract b l). assert (Hd : bnd c d) by (unfold d; auto with bnd).
  set (e := set_nx d _ _). assert (He : bnd c e) by (unfold e; auto with bnd).
  set (f := set_pv e _ _). assert (Hf : bnd c f) by (unfold f; auto with bnd).
  set (g := set_pv f _ _). assert (Hg : bnd c g) by (unfold g; auto with bnd).
  set (h := set_fv g _). assert (Hh : bnd c h) by (unfold h; auto with bnd).
  destruct (lv h); auto with bnd.
Qed.
Lemma bnd_invalidate c p l : bnd c p -> (l < c)%nat -> bnd c (c_invalidate p l).
Proof.
  intros H Hl. unfold c_invalidate. cbn zeta.
  set (a := if peq (fv p) l then _ else _). assert (Ha : bnd c a) by (unfold a; auto with bnd).
  set (b := if peq (lv a) l then _ else _). assert (Hb : bnd c b) by (unfold b; auto with bnd).
  set (d := extract b l). assert (Hd : bnd c d) by (unfold d; auto with bnd).
  set (e := set_nx d _ _). assert (He : bnd c e) by (unfold e; auto with bnd).
  set (f := set_pv e _ _). assert (Hf : bnd c f) by (unfold f; auto with bnd).
  auto with bnd.
Qed.
Lemma bnd_remove c p l : bnd c p -> (l < c)%nat -> bnd c (c_remove p l).
Proof.
  intros H Hl. unfold c_remove. cbn zeta.
  set (a := if peq (fv p) l then _ else _). assert (Ha : bnd c a) by (unfold a; auto with bnd).
  set (b := if peq (lv a) l then _ else _). assert (Hb : bnd c b) by (unfold b; auto with bnd).
  set (d := if peq (fi b) l then _ else _). assert (Hd : bnd c d) by (unfold d; auto with bnd).
  auto with bnd.
Qed.
Lemma bnd_deprioritize c p l q : bnd c p -> (l < c)%nat -> c_deprioritize p l = Ok q -> bnd c q.
Proof.
  intros H Hl. unfold c_deprioritize. destruct (peq (lv p) l); [intros E; inversion E; subst; auto|]. cbn zeta.
  set (a := if peq (fv p) l then _ else _). assert (Ha : bnd c a) by (unfold a; auto with bnd).
  set (b := extract a l). assert (Hb : bnd c b) by (unfold b; auto with bnd).
  set (d := set_pv b _ _). assert (Hd : bnd c d) by (unfold d; auto with bnd).
  set (e := set_nx d _ _). assert (He : bnd c e) by (unfold e; auto with bnd).
  destruct (lv e) eqn:E; [|discriminate]. intros X. injection X as <-.
  pose proof (bnd_lv _ _ He) as Q. rewrite E in Q.
  exact (bnd_set_lv c (set_nx e (Some l0) (Some l)) (Some l) (bnd_set_nx c e (Some l0) (Some l) He Q Hl) Hl).
Qed.
Lemma bnd_S c p : bnd c p -> bnd (S c) p.
Proof.
  intros (H1 & H2 & H3 & H4).
  assert (M : forall q, okp c q -> okp (S c) q) by (intros [x|]; simpl; auto; lia).
  repeat split; auto; try (apply M, H4); apply H4; lia.
Qed.

(* ---- the invariant ---- *)
Section Inv.
  Context {V : Type} (gen : line -> V).

  (* ex is the line being generated, if any *)
  Record winv (s : st V) (Va Iv : list line) (ex : ptr) : Prop := Winv {
    w_rep : rep (ps s) Va Iv;
    w_bnd : bnd (count s) (ps s);
    w_live : forall x, In x (Va ++ Iv) <-> live s x = true;
    w_cnt : forall x, live s x = true -> (x < count s)%nat;
    w_val : forall x, In x Va <-> lval s x <> None \/ ex = Some x;
    w_gen : forall x v, lval s x = Some v -> v = gen x;
    w_size : csz s = total (lsize s) Va;
    w_stuck : forall x, stuck s x = true <-> ex = Some x;
    w_ex : forall x, ex = Some x -> lval s x = None;
    w_pin : forall x, pins s x <> 0%nat -> lval s x <> None }.

  Definition frame (s s' : st V) : Prop :=
    live s' = live s /\ lsize s' = lsize s /\ pins s' = pins s /\ stuck s' = stuck s /\
    gens s' = gens s /\ cmax s' = cmax s /\ count s' = count s.

  Lemma total_rm f l L : NoDup L -> In l L -> total f (rm l L) = total f L - f l.
  Proof.
    intros N H. destruct (split_in _ _ H) as (A & B & ->). rewrite rm_mid by auto.
    unfold total. rewrite !map_app, !zsum_app. simpl. lia.
  Qed.

  Lemma winv_unload s Va Iv ex v : winv s Va Iv ex -> In v Va -> ex <> Some v -> pins s v = 0%nat ->
    winv (unload s v) (rm v Va) (v :: Iv) ex /\ frame s (unload s v).
  Proof.
    intros [R B L C Vl G Z K E PN] Hv Hx Hp. split; [|repeat split].
    assert (Hl : live s v = true) by (apply L, in_or_app; auto).
    constructor; cbn [unload ps csz cmax count live lsize lval pins stuck gens].
    - apply rep_invalidate; auto.
    - apply bnd_invalidate; auto.
    - intros x. rewrite <- L, !in_app_iff, in_rm. simpl. destruct (Nat.eq_dec x v); subst; intuition (subst; tauto || auto).
    - auto.
    - intros x. rewrite in_rm, Vl. unfold upd. destruct (Nat.eqb_spec x v); subst; intuition congruence.
    - intros x w. unfold upd. destruct (Nat.eqb x v); [discriminate|auto].
    - rewrite total_rm; [rewrite Z; reflexivity| |auto]. destruct R as (_ & _ & _ & _ & _ & R). apply (nodup_app_l _ _ R).
    - auto.
    - intros x Hxx. unfold upd. destruct (Nat.eqb x v); auto.
    - intros x Hxx. unfold upd. destruct (Nat.eqb_spec x v); subst; auto.
  Qed.

  (* ---- eviction ---- *)
  Definition locked (s : st V) (x : line) : bool := negb (free s x).

  Lemma surv_pinned pin size max A : forall sz P, (forall x, In x P -> pin x = true) ->
    survivors pin size max sz (P ++ A) = P ++ survivors pin size max sz A.
  Proof.
    intros sz P. induction P as [|x P IH]; intros H; simpl; auto.
    destruct (sz <=? max) eqn:E.
    - destruct A as [|y A]; simpl; [reflexivity|]. rewrite E. reflexivity.
    - rewrite (H x) by (simpl; auto). rewrite IH; auto. intros; apply H; simpl; auto.
  Qed.
  Lemma surv_fits pin size max sz A : sz <= max -> survivors pin size max sz A = A.
  Proof. intros. destruct A; simpl; auto. destruct (Z.leb_spec sz max); auto; lia. Qed.
  Lemma surv_ext pin pin' size max A : forall sz, (forall x, In x A -> pin x = pin' x) ->
    survivors pin size max sz A = survivors pin' size max sz A.
  Proof.
    induction A as [|x A IH]; intros sz H; simpl; auto. rewrite (H x) by (simpl; auto).
    rewrite !IH; auto; intros; apply H; simpl; auto.
  Qed.

  Lemma frame_free s s' x : frame s s' -> free s' x = free s x.
  Proof. intros (_ & _ & E1 & E2 & _). unfold free. rewrite E1, E2. reflexivity. Qed.
  Lemma frame_trans s s' s'' : frame s s' -> frame s' s'' -> frame s s''.
  Proof. intros (A & B & C & D & E & F & G) (A' & B' & C' & D' & E' & F' & G'). repeat split; congruence. Qed.

  Lemma mid_links s Va Iv ex A v B : winv s Va Iv ex -> Va = A ++ v :: B -> pv (ps s) v = lasto None A.
  Proof. intros W E. destruct (w_rep _ _ _ _ W) as (_ & _ & _ & S & _). rewrite E in S. apply seg_mid in S. tauto. Qed.

  Fixpoint nfree (s : st V) (l : list line) : nat :=
    match l with [] => 0 | x :: t => ((if free s x then 1 else 0) + nfree s t)%nat end.
  Lemma nfree_app s A B : nfree s (A ++ B) = (nfree s A + nfree s B)%nat.
  Proof. induction A; simpl; auto. rewrite IHA. lia. Qed.
  Lemma nfree_frame s s' A : frame s s' -> nfree s' A = nfree s A.
  Proof. intros F. induction A; simpl; auto. rewrite (frame_free _ _ _ F), IHA. reflexivity. Qed.
  Lemma nfree_len s A : (nfree s A <= length A)%nat.
  Proof. induction A; simpl; auto. destruct (free s a); lia. Qed.

  Lemma evict_spec K : forall fuel s l A P Iv,
    winv s (l :: A ++ P) Iv (Some l) ->
    (forall x, In x P -> free s x = false) ->
    (length (A ++ P) <= K)%nat ->
    (nfree s A * S K + length A + 1 <= fuel)%nat ->
    exists s' Iv', evict fuel s (lasto (Some l) A) l = Ok s' /\ frame s s' /\
      winv s' (l :: rev (survivors (locked s) (lsize s) (cmax s) (csz s) (rev A)) ++ P) Iv' (Some l).
  Proof.
    induction fuel as [|f IH]; intros s l A P Iv W HP HK HF; [lia|].
    cbn [evict]. destruct (csz s >? cmax s) eqn:EC.
    2:{ exists s, Iv. split; auto. split; [repeat split|]. rewrite surv_fits by lia. rewrite rev_involutive. exact W. }
    destruct A as [|v A _] using rev_ind.
    { cbn [lasto]. rewrite Nat.eqb_refl. exists s, Iv. split; auto. split; [repeat split|]. exact W. }
    rewrite lasto_app.
    assert (NDV : NoDup (l :: (A ++ [v]) ++ P)).
    { destruct (w_rep _ _ _ _ W) as (_ & _ & _ & _ & _ & R). apply (nodup_app_l _ _ R). }
    assert (HN : v <> l).
    { inversion NDV; subst. intros ->. apply H1. rewrite !in_app_iff. simpl. auto. }
    destruct (Nat.eqb_spec v l); [contradiction|].
    assert (EV : l :: (A ++ [v]) ++ P = (l :: A) ++ v :: P) by (simpl; rewrite <- app_assoc; reflexivity).
    assert (HIN : In v (l :: (A ++ [v]) ++ P)) by (rewrite EV; apply in_or_app; simpl; auto).
    rewrite rev_app_distr. cbn [rev app survivors].
    replace (csz s <=? cmax s) with false by (symmetry; apply Z.leb_gt; lia).
    unfold try_invalidate. change (locked s v) with (negb (free s v)). destruct (free s v) eqn:EF; cbn [negb].
    - (* evicted *)
      destruct (lval s v) as [w|] eqn:EL.
      2:{ exfalso. apply (w_val _ _ _ _ W) in HIN. destruct HIN as [H|H]; congruence. }
      destruct (winv_unload s _ _ _ v W HIN ltac:(congruence) ltac:(unfold free in EF; apply andb_prop in EF; apply Nat.eqb_eq, EF)) as (W' & F).
      rewrite EV in W'. rewrite rm_mid in W' by (rewrite <- EV; auto). cbn [app] in W'.
      assert (ELV : lv (ps (unload s v)) = lasto (Some l) (A ++ P)).
      { destruct (w_rep _ _ _ _ W') as (_ & E & _). exact E. }
      rewrite ELV.
      rewrite app_length in HK. rewrite app_length in HK. simpl in HK.
      rewrite nfree_app, app_length in HF. cbn [nfree length] in HF. rewrite EF in HF.
      destruct (IH (unload s v) l (A ++ P) [] (v :: Iv)) as (s' & Iv' & E1 & E2 & E3).
      + rewrite app_nil_r. exact W'.
      + simpl; tauto.
      + rewrite app_nil_r, app_length. lia.
      + rewrite (nfree_frame s) by auto. rewrite nfree_app, app_length.
        assert (EP : nfree s P = 0%nat).
        { clear -HP. induction P; simpl; auto. rewrite (HP a) by (simpl; auto). rewrite IHP; auto. intros; apply HP; simpl; auto. }
        rewrite EP. nia.
      + exists s', Iv'. split; auto. split; [apply (frame_trans s (unload s v) s'); auto|].
        rewrite app_nil_r in E3.
        assert (EQ : rev (survivors (locked (unload s v)) (lsize (unload s v)) (cmax (unload s v)) (csz (unload s v)) (rev (A ++ P)))
                     = rev (survivors (locked s) (lsize s) (cmax s) (csz s - lsize s v) (rev A)) ++ P).
        { cbn [unload lsize cmax csz]. rewrite rev_app_distr, surv_pinned.
          - rewrite rev_app_distr, rev_involutive. f_equal.
          - intros x Hx. unfold locked. rewrite (frame_free s) by auto. rewrite HP; auto. apply in_rev; auto. }
        rewrite <- EQ. exact E3.
    - (* in use *)
      assert (EPV : pv (ps s) v = lasto (Some l) A).
      { rewrite (mid_links s _ _ _ (l :: A) v P W EV). reflexivity. }
      rewrite EPV.
      rewrite nfree_app, app_length in HF. cbn [nfree length] in HF. rewrite EF in HF.
      destruct (IH s l A (v :: P) Iv) as (s' & Iv' & E1 & E2 & E3).
      + cbn [app] in EV. rewrite EV in W. exact W.
      + intros x [<-|Hx]; auto.
      + rewrite app_length in *. rewrite app_length in HK. simpl in *. lia.
      + lia.
      + exists s', Iv'. split; auto. split; auto.
        cbn [rev]. rewrite <- app_assoc. exact E3.
  Qed.

  Lemma members_bound s Va Iv ex : winv s Va Iv ex -> (length Va <= count s)%nat.
  Proof.
    intros W. assert (N : NoDup Va).
    { destruct (w_rep _ _ _ _ W) as (_ & _ & _ & _ & _ & R). apply (nodup_app_l _ _ R). }
    rewrite <- (seq_length (count s) 0). apply NoDup_incl_length; auto.
    intros x Hx. apply in_seq. split; [lia|]. simpl. apply (w_cnt _ _ _ _ W), (w_live _ _ _ _ W), in_or_app; auto.
  Qed.

  Definition excl (s : st V) (l : line) : st V :=
    St (ps s) (csz s) (cmax s) (count s) (live s) (lsize s) (lval s) (pins s) (upd (stuck s) l true) (gens s).

  Lemma allocate_spec s Va Iv l : winv s Va Iv None -> live s l = true -> ~ In l Va ->
    exists s' Iv', c_allocate (fuel_of s) (excl s l) l = Ok s' /\ frame (excl s l) s' /\
      winv s' (l :: rev (survivors (pinned s) (lsize s) (cmax s) (csz s + lsize s l) (rev Va))) Iv' (Some l).
  Proof.
    intros W Hl Hn. pose proof W as [R B L C Vl G Z K E PN].
    assert (HI : In l (Va ++ Iv)) by (apply L; auto).
    unfold c_allocate. cbn zeta. cbn [excl ps csz cmax count live lsize lval pins stuck gens].
    set (s1 := St _ _ _ _ _ _ _ _ _ _).
    assert (W1 : winv s1 (l :: Va) (rm l Iv) (Some l)).
    { constructor; cbn [s1 ps csz cmax count live lsize lval pins stuck gens].
      - rewrite <- (rm_notin l Va) at 1 by auto. apply rep_validate; auto.
      - apply bnd_validate; auto.
      - intros x. rewrite <- L. simpl. rewrite !in_app_iff, in_rm. destruct (Nat.eq_dec l x); subst; intuition.
      - auto.
      - intros x. simpl. rewrite Vl. split; intros H.
        + destruct H as [->|[H|H]]; auto; congruence.
        + destruct H as [H|H]; [auto|inversion H; auto].
      - auto.
      - unfold total. simpl. fold (total (lsize s) Va). rewrite Z. lia.
      - intros x. unfold upd. destruct (Nat.eqb_spec x l); subst; [tauto|].
        rewrite K. split; intros H; congruence.
      - intros x H. inversion H; subst. destruct (lval s x) eqn:EL; auto.
        exfalso. apply Hn, Vl. left. congruence.
      - exact PN. }
    pose proof (members_bound _ _ _ _ W1) as MB. cbn [count s1 length] in MB.
    destruct (evict_spec (length Va) (fuel_of s) s1 l Va [] (rm l Iv)) as (s' & Iv' & E1 & E2 & E3).
    - rewrite app_nil_r. exact W1.
    - simpl; tauto.
    - rewrite app_nil_r. lia.
    - unfold fuel_of. pose proof (nfree_len s1 Va). nia.
    - assert (ELV : lv (ps s1) = lasto (Some l) Va).
      { destruct (w_rep _ _ _ _ W1) as (_ & X & _). exact X. }
      rewrite <- ELV in E1. exists s', Iv'. split; [exact E1|]. split; [exact E2|].
      rewrite app_nil_r in E3. cbn [s1 lsize cmax csz] in E3.
      rewrite (surv_ext (pinned s) (locked s1)); auto.
      intros x Hx. apply in_rev in Hx. unfold pinned, locked, free. cbn [s1 pins stuck].
      unfold upd. destruct (Nat.eqb_spec x l); [subst; contradiction|].
      assert (ES : stuck s x = false). { destruct (stuck s x) eqn:EQ; auto. apply K in EQ. discriminate. }
      rewrite ES. cbn. rewrite andb_true_r. reflexivity.
  Qed.

  Definition may_take (s : st V) (l : line) : Prop := lval s l <> None \/ pins s l = 0%nat.

  Lemma stuck_none s Va Iv l : winv s Va Iv None -> stuck s l = false.
  Proof. intros W. destruct (stuck s l) eqn:E; auto. apply (w_stuck _ _ _ _ W) in E. discriminate. Qed.

  Lemma value_hit s Va Iv l : winv s Va Iv None -> In l Va ->
    exists s', do_value gen (fuel_of s) s l = Ok (s', gen l) /\
      pins s' l = S (pins s l) /\ (forall x, x <> l -> pins s' x = pins s x) /\
      gens s' l = gens s l /\ csz s' = csz s /\ cmax s' = cmax s /\ lsize s' = lsize s /\
      winv s' Va Iv None.
  Proof.
    intros W Hin. unfold do_value. rewrite (stuck_none _ _ _ l W).
    apply (w_val _ _ _ _ W) in Hin. destruct Hin as [Hin|]; [|discriminate].
    destruct (lval s l) as [v|] eqn:EV; [|congruence].
    rewrite (w_gen _ _ _ _ W l v EV). eexists. split; [reflexivity|].
    cbn [pins gens csz cmax lsize]. rewrite upd_same.
    split; auto. split; [intros x Hx; apply upd_other; auto|].
    split; auto. split; auto. split; auto. split; auto.
    destruct W. constructor; auto. cbn [pins lval]. intros x. unfold upd. destruct (Nat.eqb_spec x l); subst; auto. congruence.
  Qed.

  Lemma value_miss s Va Iv l : winv s Va Iv None -> live s l = true -> ~ In l Va -> pins s l = 0%nat ->
    exists s' Iv', do_value gen (fuel_of s) s l = Ok (s', gen l) /\
      pins s' l = 1%nat /\ (forall x, x <> l -> pins s' x = pins s x) /\
      gens s' l = S (gens s l) /\ (forall x, x <> l -> gens s' x = gens s x) /\
      cmax s' = cmax s /\ lsize s' = lsize s /\
      winv s' (l :: rev (survivors (pinned s) (lsize s) (cmax s) (csz s + lsize s l) (rev Va))) Iv' None.
  Proof.
    intros W Hl Hn Hp. unfold do_value. rewrite (stuck_none _ _ _ l W).
    destruct (lval s l) as [v|] eqn:EV.
    { exfalso. apply Hn, (w_val _ _ _ _ W). left. congruence. }
    rewrite Hp. cbn [Nat.eqb]. cbn zeta. fold (excl s l).
    destruct (allocate_spec s Va Iv l W Hl Hn) as (s1 & Iv' & E1 & F & W1).
    rewrite E1. cbn [bind]. eexists. exists Iv'. split; [reflexivity|].
    destruct F as (F1 & F2 & F3 & F4 & F5 & F6 & F7).
    cbn [ps csz cmax count live lsize lval pins stuck gens excl] in *.
    rewrite !upd_same, F3, F5, Hp. split; auto.
    split; [intros; rewrite upd_other; auto|]. split; auto. split; [intros; rewrite upd_other; auto|].
    split; auto. split; auto.
    destruct W1 as [R B L C Vl G Z K E PN].
    constructor; cbn [ps csz cmax count live lsize lval pins stuck gens]; auto.
    - intros x. rewrite Vl. unfold upd. destruct (Nat.eqb_spec x l); subst.
      + split; intros _; [left; discriminate|right; reflexivity].
      + split; intros [H|H]; auto; try discriminate. inversion H; congruence.
    - intros x v. unfold upd. destruct (Nat.eqb_spec x l); subst; [intros X; inversion X; auto|apply G].
    - intros x. unfold upd. destruct (Nat.eqb_spec x l); subst; [split; discriminate|].
      rewrite K. split; intros H; [inversion H; congruence|discriminate].
    - discriminate.
    - intros x. unfold upd. destruct (Nat.eqb_spec x l); [discriminate|rewrite <- F3; apply PN].
  Qed.

  (* ---- the other operations ---- *)
  Lemma winv0 max : winv (cache0 max) [] [] None.
  Proof.
    constructor; cbn.
    - repeat split; constructor.
    - repeat split; intros; exact I || lia || auto.
    - intros x. split; [tauto|discriminate].
    - discriminate.
    - intros x. split; [tauto|]. intros [H|H]; [congruence|discriminate].
    - discriminate.
    - reflexivity.
    - intros x. split; discriminate.
    - auto.
    - auto.
  Qed.

  Lemma insert_spec s Va Iv sz : winv s Va Iv None ->
    winv (fst (do_insert s sz)) Va (count s :: Iv) None /\ live s (count s) = false.
  Proof.
    intros W. pose proof W as [R B L C Vl G Z K E PN].
    assert (NL : live s (count s) = false).
    { destruct (live s (count s)) eqn:X; auto. apply C in X. lia. }
    assert (NIN : ~ In (count s) (Va ++ Iv)) by (intros H; apply L in H; congruence).
    split; auto. unfold do_insert. cbn [fst].
    assert (D : forall x, In x Va -> x <> count s) by (intros x Hx ->; apply NIN, in_or_app; auto).
    constructor; cbn [ps csz cmax count live lsize lval pins stuck gens].
    - apply rep_fresh; auto; apply B; lia.
    - apply bnd_invalidate; [apply bnd_S; auto|lia].
    - intros x. unfold upd. destruct (Nat.eqb_spec x (count s)); subst.
      + rewrite in_app_iff. simpl. tauto.
      + rewrite <- L, !in_app_iff. simpl. intuition congruence.
    - intros x. unfold upd. destruct (Nat.eqb_spec x (count s)); subst; [lia|]. intros H. apply C in H. lia.
    - intros x. unfold upd. destruct (Nat.eqb_spec x (count s)); subst.
      + split; [intros H; exfalso; apply NIN, in_or_app; auto|intros [H|H]; [congruence|discriminate]].
      + apply Vl.
    - intros x v. unfold upd. destruct (Nat.eqb x (count s)); [discriminate|apply G].
    - rewrite Z. unfold total. f_equal. apply map_ext_in. intros x Hx. rewrite upd_other; auto.
    - intros x. unfold upd. destruct (Nat.eqb_spec x (count s)); subst; [split; discriminate|apply K].
    - discriminate.
    - intros x. unfold upd. destruct (Nat.eqb_spec x (count s)); [congruence|apply PN].
  Qed.

  Lemma release_spec s Va Iv l s' : winv s Va Iv None -> do_release s l = Ok s' ->
    winv s' Va Iv None /\ pins s l = S (pins s' l).
  Proof.
    intros [R B L C Vl G Z K E PN] H. unfold do_release in H. destruct (pins s l) as [|n] eqn:EP; [discriminate|].
    inversion H; subst. cbn [pins]. rewrite upd_same. split; auto. constructor; auto.
    cbn [pins lval]. intros x. unfold upd. destruct (Nat.eqb_spec x l); subst; auto. intros _. apply PN. lia.
  Qed.

  Lemma depri_spec s Va Iv l : winv s Va Iv None -> pins s l = 0%nat ->
    exists s', do_deprioritize s l = Ok s' /\ frame s s' /\ csz s' = csz s /\
      winv s' (if existsb (Nat.eqb l) Va then rm l Va ++ [l] else Va) Iv None.
  Proof.
    intros W Hp. pose proof W as [R B L C Vl G Z K E PN]. unfold do_deprioritize, free.
    rewrite Hp, (stuck_none _ _ _ l W). cbn [Nat.eqb negb andb].
    destruct (lval s l) as [v|] eqn:EV.
    - assert (HI : In l Va) by (apply Vl; left; congruence).
      assert (EX : existsb (Nat.eqb l) Va = true) by (apply existsb_exists; exists l; split; auto; apply Nat.eqb_refl).
      rewrite EX. destruct (rep_deprioritize (ps s) Va Iv l R HI) as (p & Ep & Rp). rewrite Ep. cbn [bind].
      eexists. split; [reflexivity|]. split; [repeat split|]. split; auto.
      assert (M : forall x, In x (rm l Va ++ [l]) <-> In x Va).
      { intros x. rewrite in_app_iff, in_rm. simpl. destruct (Nat.eq_dec l x); subst; intuition. }
      constructor; cbn [ps csz cmax count live lsize lval pins stuck gens]; auto.
      + apply (bnd_deprioritize _ (ps s) l); auto. apply C, L, in_or_app; auto.
      + intros x. rewrite in_app_iff, M, <- in_app_iff. apply L.
      + intros x. rewrite M. apply Vl.
      + rewrite Z. unfold total. rewrite map_app, zsum_app. simpl.
        destruct R as (_ & _ & _ & _ & _ & ND).
        pose proof (total_rm (lsize s) l Va (nodup_app_l _ _ ND) HI). unfold total in *. lia.
    - exists s. split; auto. split; [repeat split|]. split; auto.
      replace (existsb (Nat.eqb l) Va) with false; auto.
      symmetry. apply not_true_iff_false. intros H. apply existsb_exists in H. destruct H as (x & Hx & Ex).
      apply Nat.eqb_eq in Ex. subst. apply Vl in Hx. destruct Hx; [congruence|discriminate].
  Qed.

  Lemma linvalidate_spec s Va Iv l : winv s Va Iv None -> pins s l = 0%nat ->
    exists s' Iv', l_invalidate s l = Ok s' /\ frame s s' /\ winv s' (rm l Va) Iv' None.
  Proof.
    intros W Hp. unfold l_invalidate, free. rewrite Hp, (stuck_none _ _ _ l W). cbn [Nat.eqb negb andb].
    destruct (lval s l) as [v|] eqn:EV.
    - assert (HI : In l Va) by (apply (w_val _ _ _ _ W); left; congruence).
      destruct (winv_unload s _ _ _ l W HI ltac:(discriminate) Hp) as (W' & F). eauto.
    - exists s, Iv. split; auto. split; [repeat split|]. rewrite rm_notin; auto.
      intros H. apply (w_val _ _ _ _ W) in H. destruct H; [congruence|discriminate].
  Qed.

  Lemma drop_spec s Va Iv l : winv s Va Iv None -> live s l = true -> pins s l = 0%nat ->
    exists s' Iv', do_drop s l = Ok s' /\ winv s' (rm l Va) Iv' None /\ live s' l = false.
  Proof.
    intros W Hl Hp. unfold do_drop. destruct (linvalidate_spec s Va Iv l W Hp) as (s1 & I1 & E1 & F & W1).
    rewrite E1. cbn [bind]. destruct F as (F1 & F2 & F3 & F4 & F5 & F6 & F7).
    pose proof W1 as [R B L C Vl G Z K E PN].
    assert (HL : live s1 l = true) by congruence.
    eexists. exists (rm l I1). split; [reflexivity|]. split; [|cbn; apply upd_same].
    constructor; cbn [ps csz cmax count live lsize lval pins stuck gens]; auto.
    - rewrite <- (rm_notin l (rm l Va)) by (rewrite in_rm; tauto). apply rep_remove; auto. apply L; auto.
    - apply bnd_remove; auto.
    - intros x. unfold upd. rewrite in_app_iff, !in_rm. destruct (Nat.eqb_spec x l).
      + subst. split; [tauto|discriminate].
      + rewrite <- L, in_app_iff, in_rm. tauto.
    - intros x. unfold upd. destruct (Nat.eqb x l); [discriminate|apply C].
  Qed.

  Lemma shrink_spec : forall fuel s Va Iv, winv s Va Iv None -> 0 <= cmax s ->
    (forall x, In x Va -> pins s x = 0%nat) -> (length Va < fuel)%nat ->
    exists s' Iv', shrink fuel s = Ok s' /\ frame s s' /\
      winv s' (rev (survivors (pinned s) (lsize s) (cmax s) (csz s) (rev Va))) Iv' None.
  Proof.
    induction fuel as [|f IH]; intros s Va Iv W HM HP HF; [lia|]. cbn [shrink].
    destruct (csz s >? cmax s) eqn:EC.
    2:{ exists s, Iv. split; auto. split; [repeat split|]. rewrite surv_fits by lia. rewrite rev_involutive. auto. }
    pose proof (w_rep _ _ _ _ W) as (_ & EL & _ & _ & _ & ND). rewrite EL.
    destruct Va as [|v Va _] using rev_ind.
    { exfalso. pose proof (w_size _ _ _ _ W) as Z. unfold total in Z. simpl in Z. lia. }
    rewrite lasto_app.
    destruct (linvalidate_spec s _ _ v W (HP v ltac:(apply in_or_app; simpl; auto))) as (s1 & I1 & E1 & F & W1).
    rewrite E1. cbn [bind]. rewrite rm_mid, app_nil_r in W1 by apply (nodup_app_l _ _ ND).
    rewrite app_length in HF. simpl in HF. pose proof F as (F1 & F2 & F3 & F4 & F5 & F6 & F7).
    destruct (IH s1 Va I1 W1) as (s2 & I2 & E2 & Fr & W2).
    - congruence.
    - intros x Hx. rewrite F3. apply HP, in_or_app; auto.
    - lia.
    - exists s2, I2. split; auto. split; [apply (frame_trans s s1 s2); auto|].
      rewrite rev_app_distr. cbn [rev app survivors].
      replace (csz s <=? cmax s) with false by (symmetry; apply Z.leb_gt; lia).
      assert (EP : pinned s v = false). { unfold pinned. rewrite HP; auto. apply in_or_app; simpl; auto. }
      rewrite EP.
      assert (EZ : csz s1 = csz s - lsize s v).
      { rewrite (w_size _ _ _ _ W1), (w_size _ _ _ _ W), F2. unfold total. rewrite map_app, zsum_app. simpl. lia. }
      rewrite F2, F6, EZ in W2.
      rewrite (surv_ext (pinned s) (pinned s1)); auto. intros x _. unfold pinned. rewrite F3. reflexivity.
  Qed.

  (* a resize that gives up a line in use never returns; one that returns needed no such line *)
  Lemma shrink_inv : forall fuel s Va Iv s', winv s Va Iv None -> shrink fuel s = Ok s' ->
    exists Iv', frame s s' /\ winv s' (rev (survivors (pinned s) (lsize s) (cmax s) (csz s) (rev Va))) Iv' None /\ csz s' <= cmax s'.
  Proof.
    induction fuel as [|f IH]; intros s Va Iv s' W HS; [discriminate|]. cbn [shrink] in HS.
    destruct (csz s >? cmax s) eqn:EC.
    2:{ inversion HS; subst. exists Iv. split; [repeat split|]. rewrite surv_fits by lia. rewrite rev_involutive. split; auto. lia. }
    pose proof (w_rep _ _ _ _ W) as (_ & EL & _ & _ & _ & ND). rewrite EL in HS.
    destruct Va as [|v Va _] using rev_ind; [discriminate|].
    rewrite lasto_app in HS.
    destruct (l_invalidate s v) as [s1| |] eqn:E1; try discriminate. cbn [bind] in HS.
    assert (HP : pins s v = 0%nat).
    { unfold l_invalidate in E1. destruct (free s v) eqn:EF; [|discriminate]. unfold free in EF.
      apply andb_prop in EF. destruct EF as [EF _]. apply Nat.eqb_eq; auto. }
    destruct (linvalidate_spec s _ _ v W HP) as (s1' & I1 & E1' & F & W1). rewrite E1 in E1'. inversion E1'; subst s1'.
    rewrite rm_mid, app_nil_r in W1 by apply (nodup_app_l _ _ ND).
    pose proof F as (F1 & F2 & F3 & F4 & F5 & F6 & F7).
    destruct (IH s1 Va I1 s' W1 HS) as (I2 & Fr & W2 & LE).
    exists I2. split; [apply (frame_trans s s1 s'); auto|]. split; auto.
    rewrite rev_app_distr. cbn [rev app survivors].
    replace (csz s <=? cmax s) with false by (symmetry; apply Z.leb_gt; lia).
    assert (EP : pinned s v = false). { unfold pinned. rewrite HP; auto. }
    rewrite EP.
    assert (EZ : csz s1 = csz s - lsize s v).
    { rewrite (w_size _ _ _ _ W1), (w_size _ _ _ _ W), F2. unfold total. rewrite map_app, zsum_app. simpl. lia. }
    rewrite F2, F6, EZ in W2.
    rewrite (surv_ext (pinned s) (pinned s1)); auto. intros x _. unfold pinned. rewrite F3. reflexivity.
  Qed.

  Lemma winv_setmax s Va Iv n : winv s Va Iv None ->
    winv (St (ps s) (csz s) n (count s) (live s) (lsize s) (lval s) (pins s) (stuck s) (gens s)) Va Iv None.
  Proof. intros [R B L C Vl G Z K E PN]. constructor; auto. Qed.

  (* ---- one step ---- *)
  Lemma in_exb l Va : existsb (Nat.eqb l) Va = true <-> In l Va.
  Proof.
    rewrite existsb_exists. split; [intros (x & Hx & E); apply Nat.eqb_eq in E; subst; auto|].
    intros H. exists l. split; auto. apply Nat.eqb_refl.
  Qed.

  Lemma step_spec s Va Iv o s' : winv s Va Iv None -> step gen s o = Ok s' ->
    exists Iv', winv s' (order_after s o Va) Iv' None.
  Proof.
    intros W H. destruct o as [sz|l|l|l|n|l]; cbn [step order_after] in *.
    - injection H as <-. destruct (insert_spec s Va Iv sz W) as (W1 & _). eauto.
    - unfold with_line in H. destruct (live s l) eqn:HL; [|discriminate].
      destruct (existsb (Nat.eqb l) Va) eqn:EX.
      + apply in_exb in EX. destruct (value_hit s Va Iv l W EX) as (s1 & E & _ & _ & _ & _ & _ & _ & W1).
        rewrite E in H. inversion H; subst. eauto.
      + assert (EN : ~ In l Va) by (rewrite <- in_exb; congruence).
        assert (HP : pins s l = 0%nat).
        { unfold do_value in H. rewrite (stuck_none _ _ _ l W) in H.
          destruct (lval s l) eqn:EL; [exfalso; apply EN, (w_val _ _ _ _ W); left; congruence|].
          destruct (Nat.eqb_spec (pins s l) 0); auto. discriminate. }
        destruct (value_miss s Va Iv l W HL EN HP) as (s1 & I1 & E & _ & _ & _ & _ & _ & _ & W1).
        rewrite E in H. inversion H; subst. eauto.
    - unfold with_line in H. destruct (live s l); [|discriminate]. apply (release_spec _ Va Iv) in H; auto. destruct H. eauto.
    - unfold with_line in H. destruct (live s l); [|discriminate].
      assert (HP : pins s l = 0%nat).
      { unfold do_deprioritize, free in H. destruct (Nat.eqb_spec (pins s l) 0); auto. discriminate. }
      destruct (depri_spec s Va Iv l W HP) as (s1 & E & _ & _ & W1). rewrite E in H. inversion H; subst. eauto.
    - unfold do_resize in H. destruct (shrink_inv _ _ Va Iv s' (winv_setmax s Va Iv n W) H) as (I1 & _ & W1 & _). eauto.
    - unfold with_line in H. destruct (live s l) eqn:HL; [|discriminate].
      assert (HP : pins s l = 0%nat).
      { unfold do_drop, l_invalidate, free in H. destruct (Nat.eqb_spec (pins s l) 0); auto. discriminate. }
      destruct (drop_spec s Va Iv l W HL HP) as (s1 & I1 & E & W1 & _). rewrite E in H. inversion H; subst. eauto.
  Qed.

  Lemma steps_spec : forall ops s Va Iv s', winv s Va Iv None -> steps gen s ops = Ok s' ->
    exists Va' Iv', winv s' Va' Iv' None.
  Proof.
    induction ops as [|o t IH]; intros s Va Iv s' W H; simpl in H; [inversion H; subst; eauto|].
    destruct (step gen s o) as [s1| |] eqn:E; try discriminate. simpl in H.
    destruct (step_spec s Va Iv o s1 W E) as (I1 & W1). eauto.
  Qed.

  (* ---- from the invariant to the specification ---- *)
  Lemma seg_chain n m : forall l p, seg n m p l None -> chain n (hdo l None) l.
  Proof.
    induction l as [|a t IH]; intros p S; simpl; auto. destruct S as (_ & E & S). split; auto. rewrite E. eapply IH; eauto.
  Qed.
  Lemma seg_chain_rev n m : forall l, seg n m None l None -> chain m (lasto None l) (rev l).
  Proof.
    intros l. assert (G : forall l p e, seg n m p l e -> forall acc, chain m p acc -> chain m (lasto p l) (rev l ++ acc)).
    { clear. induction l as [|a t IH]; intros p e S acc HA; simpl; auto.
      destruct S as (E & _ & S). rewrite <- app_assoc. simpl. eapply IH; eauto. simpl. rewrite E. auto. }
    intros S. specialize (G l None None S []). rewrite app_nil_r in G. apply G. reflexivity.
  Qed.

  Lemma winv_holds s Va Iv : winv s Va Iv None -> holds gen s Va Iv.
  Proof.
    intros W. pose proof W as [(R1 & R2 & R3 & R4 & R5 & R6) B L C Vl G Z K E PN]. constructor; auto.
    - rewrite R1. eapply seg_chain; eauto.
    - rewrite R2. eapply seg_chain_rev; eauto.
    - rewrite R3. eapply seg_chain; eauto.
    - intros l. rewrite Vl. split.
      + intros [H|H]; [|discriminate]. destruct (lval s l) as [v|] eqn:EV; [|congruence]. rewrite (G l v EV). reflexivity.
      + intros ->. left; discriminate.
    - intros l H. destruct (lval s l) eqn:EV; auto. exfalso. apply H, Vl. left; congruence.
    - intros l. eapply stuck_none; eauto.
  Qed.

  Lemma chain_det f : forall l l' p, chain f p l -> chain f p l' -> l = l'.
  Proof.
    induction l as [|a l IH]; intros [|b l'] p H H'; simpl in *; auto.
    - destruct H'; congruence.
    - destruct H; congruence.
    - destruct H as [E H], H' as [E' H']. rewrite E in E'. inversion E'; subst. f_equal. eauto.
  Qed.
  (* the lists are determined by the state *)
  Lemma holds_det s Va Iv Va' Iv' : holds gen s Va Iv -> holds gen s Va' Iv' -> Va = Va' /\ Iv = Iv'.
  Proof. intros H H'. split; eapply chain_det; [apply (h_fwd _ _ _ _ H)|apply (h_fwd _ _ _ _ H')|apply (h_inv _ _ _ _ H)|apply (h_inv _ _ _ _ H')]. Qed.

  (* ---- facts about survivors ---- *)
  Lemma surv_sub pin size max : forall old sz, sublist (survivors pin size max sz old) old.
  Proof.
    assert (RF : forall (A : Type) (l : list A), sublist l l) by (induction l; [apply sub_nil|apply sub_keep; auto]).
    induction old as [|x t IH]; intros sz; simpl; [constructor|].
    destruct (sz <=? max); [apply RF|]. destruct (pin x); [apply sub_keep|apply sub_skip]; auto.
  Qed.
  Lemma surv_size pin size max : forall old sz,
    sz - total size old + total size (survivors pin size max sz old) <= max \/
    (forall x, In x (survivors pin size max sz old) -> pin x = true).
  Proof.
    induction old as [|x t IH]; intros sz; simpl; [right; simpl; tauto|].
    destruct (Z.leb_spec sz max) as [H|H].
    - left. unfold total. simpl. lia.
    - destruct (pin x) eqn:EP.
      + destruct (IH sz) as [H'|H'].
        * left. unfold total in *. simpl. lia.
        * right. intros y [<-|Hy]; auto.
      + destruct (IH (sz - size x)) as [H'|H'].
        * left. unfold total in *. simpl. lia.
        * right. auto.
  Qed.
  Lemma surv_evicted pin size max : forall old sz x, In x old -> NoDup old -> ~ In x (survivors pin size max sz old) ->
    pin x = false.
  Proof.
    induction old as [|y t IH]; intros sz x Hx ND HN; simpl in *; [tauto|]. inversion ND; subst.
    destruct (sz <=? max); [exfalso; apply HN; simpl; auto|].
    destruct (pin y) eqn:EP.
    - destruct Hx as [->|Hx]; [exfalso; apply HN; simpl; auto|]. apply (IH sz x); auto. intros H; apply HN; simpl; auto.
    - destruct Hx as [->|Hx]; auto. apply (IH (sz - size y) x); auto.
  Qed.
  (* an unpinned survivor is more recent than everything evicted *)
  Lemma surv_oldest pin size max : forall old sz x y, NoDup old -> In x old ->
    ~ In x (survivors pin size max sz old) -> In y (survivors pin size max sz old) -> pin y = false ->
    before x y old.
  Proof.
    induction old as [|z t IH]; intros sz x y ND Hx HN Hy HP; simpl in *; [tauto|]. inversion ND; subst.
    assert (SB : forall sz, forall w, In w (survivors pin size max sz t) -> In w t).
    { intros sz' w Hw. pose proof (surv_sub pin size max t sz') as S. clear -S Hw. revert Hw.
      induction S; simpl; auto. intros [->|H]; auto. }
    destruct (sz <=? max); [exfalso; apply HN; simpl; auto|].
    destruct (pin z) eqn:EP.
    - destruct Hx as [->|Hx]; [exfalso; apply HN; simpl; auto|].
      destruct Hy as [->|Hy]; [congruence|].
      destruct (IH sz x y) as (a & b & c & E); auto; [intros H; apply HN; simpl; auto|].
      exists (z :: a), b, c. rewrite E. reflexivity.
    - destruct Hx as [->|Hx].
      + apply SB in Hy. destruct (in_split _ _ Hy) as (b & c & E). exists [], b, c. rewrite E. reflexivity.
      + destruct (IH (sz - size z) x y) as (a & b & c & E); auto. exists (z :: a), b, c. rewrite E. reflexivity.
  Qed.
End Inv.
