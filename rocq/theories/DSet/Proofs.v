From Coq Require Import List Arith Lia Bool.
From Verif Require Import Lib.Base Lib.Lists DSet.Model DSet.Spec.
Import ListNotations.

Section P.
  Context {T : Type}.
  Implicit Types (h : heap T) (n m : node T).

  (* k parent steps lead from x to the root r *)
  Inductive rooted h : nat -> nat -> nat -> Prop :=
  | rt0 x n : nth_error h x = Some n -> par n = None -> rooted h x 0 x
  | rtS x n p k r : nth_error h x = Some n -> par n = Some p -> rooted h p k r -> rooted h x (S k) r.
  Definition rep h x r := exists k, rooted h x k r.

  Lemma rooted_det h x k r : rooted h x k r -> forall k' r', rooted h x k' r' -> k = k' /\ r = r'.
  Proof.
    induction 1; intros k' r' H'; inversion H'; subst; try congruence; auto.
    assert (p = p0) by congruence. subst. destruct (IHrooted _ _ H4). auto.
  Qed.
  Lemma rep_det h x r r' : rep h x r -> rep h x r' -> r = r'.
  Proof. intros (k & H) (k' & H'). eapply rooted_det; eauto. Qed.
  Lemma rooted_valid h x k r : rooted h x k r -> x < length h /\ r < length h.
  Proof. induction 1; [|destruct IHrooted; split; auto]; eauto using nth_error_lt. Qed.
  Lemma rooted_root h x k r : rooted h x k r -> exists n, nth_error h r = Some n /\ par n = None.
  Proof. induction 1; eauto. Qed.
  Lemma rep_self h x r : rep h x r -> rep h r r.
  Proof. intros (k & H). destruct (rooted_root _ _ _ _ H) as (n & E & P). exists 0. eapply rt0; eauto. Qed.

  Record inv h : Prop := {
    i_all : forall x, x < length h -> exists r, rep h x r;
    i_rk : forall x n p m, nth_error h x = Some n -> par n = Some p -> nth_error h p = Some m ->
             rank n < rank m \/ (rank n = 0 /\ forall y n', nth_error h y = Some n' -> par n' <> Some x);
    i_sz : forall s n, nth_error h s = Some n -> par n = None ->
             exists L, NoDup L /\ (forall x, In x L -> rep h x s) /\ 2 ^ rank n <= length L }.

  Lemma rooted_depth h x k r : inv h -> rooted h x k r -> forall n m, nth_error h x = Some n -> nth_error h r = Some m ->
    k <= S (rank m) /\ ((exists y n', nth_error h y = Some n' /\ par n' = Some x) -> rank n + k <= rank m).
  Proof.
    intros V R. induction R as [x n0 E P|x n0 p k r E P R IH]; intros n m En Em.
    - rewrite En in Em. injection Em as <-. split; [lia|]. intros; lia.
    - rewrite E in En. injection En as <-.
      destruct (rooted_valid _ _ _ _ R) as [LP _]. destruct (nth_error_ex _ _ LP) as (np & Ep).
      destruct (IH _ _ Ep Em) as [A B]. assert (B' := B ltac:(eauto)). split; [lia|].
      intros (y & n' & Ey & Py). destruct (i_rk _ V _ _ _ _ E P Ep) as [L|(_ & F)]; [lia|].
      exfalso. eapply F; eauto.
  Qed.

  Lemma pow2_gt (a : nat) : a < 2 ^ a.
  Proof. induction a; simpl; lia. Qed.

  Lemma size_le h L : NoDup L -> (forall x, In x L -> x < length h) -> length L <= length h.
  Proof.
    intros ND H. rewrite <- (seq_length (length h) 0). apply NoDup_incl_length; auto.
    intros x Hx. apply in_seq. specialize (H x Hx). lia.
  Qed.

  Lemma rank_log h s n : inv h -> nth_error h s = Some n -> par n = None -> 2 ^ rank n <= length h.
  Proof.
    intros V E P. destruct (i_sz _ V _ _ E P) as (L & ND & HL & S).
    eapply Nat.le_trans; [exact S|]. apply size_le; auto.
    intros x Hx. destruct (HL x Hx) as (k & R). apply rooted_valid in R. tauto.
  Qed.
  Lemma rooted_short h x k r : inv h -> rooted h x k r -> k <= length h.
  Proof.
    intros V R. destruct (rooted_root _ _ _ _ R) as (m & E & P). destruct (rooted_valid _ _ _ _ R) as [LX _].
    destruct (nth_error_ex _ _ LX) as (n & En). destruct (rooted_depth _ _ _ _ V R _ _ En E) as [A _].
    pose proof (rank_log _ _ _ V E P). pose proof (pow2_gt (rank m)). lia.
  Qed.

  Lemma climb_ok h x k r : rooted h x k r -> forall f, k <= f -> climb f h x = Ok r.
  Proof.
    induction 1; intros f L; destruct f; simpl; rewrite H; simpl; rewrite H0; auto; try lia.
    apply IHrooted. lia.
  Qed.

  (* ---- changing a parent ---- *)
  Lemma set_par_nth h i p n : nth_error h i = Some n ->
    set_par h i p = upd h i (Node (val n) (Some p) (rank n)).
  Proof. intros E. unfold set_par. rewrite E. reflexivity. Qed.
  Lemma set_par_length h i p : length (set_par h i p) = length h.
  Proof. unfold set_par. destruct (nth_error h i); auto. apply upd_length. Qed.

  Definition ranks h := map (@rank T) h.
  Definition vals h := map (@val T) h.
  Lemma set_par_ranks h i p : ranks (set_par h i p) = ranks h /\ vals (set_par h i p) = vals h.
  Proof.
    unfold set_par, ranks, vals. destruct (nth_error h i) eqn:E; auto. rewrite !upd_map. simpl. split.
    - revert i E. induction h; destruct i; simpl; intros E; try discriminate; f_equal; auto; congruence.
    - revert i E. induction h; destruct i; simpl; intros E; try discriminate; f_equal; auto; congruence.
  Qed.
  Lemma ranks_nth h x n : nth_error h x = Some n -> nth_error (ranks h) x = Some (rank n).
  Proof. intros E. unfold ranks. rewrite nth_error_map, E. reflexivity. Qed.

  Lemma set_par_other h i p x : x <> i -> nth_error (set_par h i p) x = nth_error h x.
  Proof. intros N. unfold set_par. destruct (nth_error h i); auto. apply upd_neq; auto. Qed.
  Lemma set_par_self h i p n : nth_error h i = Some n ->
    nth_error (set_par h i p) i = Some (Node (val n) (Some p) (rank n)).
  Proof. intros E. rewrite (set_par_nth _ _ _ _ E). apply upd_eq. eauto using nth_error_lt. Qed.

  (* i gets its own root as parent *)
  Lemma shortcut_rooted h i s : rep h i s -> i <> s ->
    forall x k r, rooted h x k r -> exists k', k' <= k /\ rooted (set_par h i s) x k' r.
  Proof.
    intros (ki & RI) NE x k r R. pose proof (rooted_root _ _ _ _ RI) as (ns & Es & Ps).
    destruct (nth_error_ex h i) as (ni & Ei); [apply rooted_valid in RI; tauto|].
    assert (RS : rooted (set_par h i s) s 0 s) by (eapply rt0; [rewrite set_par_other; eauto|auto]).
    induction R as [x n E P|x n p k r E P R IH].
    - exists 0. split; auto. destruct (Nat.eq_dec x i) as [->|N].
      + exfalso. inversion RI; subst; congruence.
      + eapply rt0; [rewrite set_par_other; eauto|auto].
    - destruct (Nat.eq_dec x i) as [->|N].
      + exists 1. split; [lia|]. assert (r = s).
        { eapply (rep_det h i); [exists (S k); exact (rtS h i n p k r E P R)|exists ki; auto]. } subst.
        eapply rtS; [eapply set_par_self; eauto|reflexivity|auto].
      + destruct IH as (k' & L & R'). exists (S k'). split; [lia|].
        eapply rtS; [rewrite set_par_other; eauto|eauto|auto].
  Qed.

  Record same_sets h h' : Prop := {
    s_len : length h' = length h;
    s_rep : forall x r, rep h x r -> rep h' x r;
    s_rk : ranks h' = ranks h; s_val : vals h' = vals h }.
  Lemma same_refl h : same_sets h h. Proof. split; auto. Qed.
  Lemma same_trans h h' h'' : same_sets h h' -> same_sets h' h'' -> same_sets h h''.
  Proof. intros [A B C D] [A' B' C' D']. split; try congruence; auto. Qed.
  Lemma same_back h h' x r : inv h -> same_sets h h' -> rep h' x r -> rep h x r.
  Proof.
    intros V [A B _ _] R. destruct (i_all _ V x) as (r' & R').
    { destruct R as (k & R). apply rooted_valid in R. lia. }
    rewrite (rep_det h' x r r'); auto.
  Qed.

  Lemma shortcut_inv h i s : inv h -> rep h i s -> i <> s -> inv (set_par h i s) /\ same_sets h (set_par h i s).
  Proof.
    intros V RI NE. pose proof RI as (ki & RI').
    destruct (nth_error_ex h i) as (ni & Ei); [apply rooted_valid in RI'; tauto|].
    destruct (set_par_ranks h i s) as [HR HV].
    assert (SS : same_sets h (set_par h i s)).
    { split; auto; [apply set_par_length|]. intros x r (k & R).
      destruct (shortcut_rooted h i s RI NE x k r R) as (k' & _ & R'). exists k'; auto. }
    split; auto. split.
    - intros x L. rewrite set_par_length in L. destruct (i_all _ V x L) as (r & R). exists r. apply (s_rep _ _ SS); auto.
    - intros x n p m E P Em.
      assert (FM : forall y nm, nth_error (set_par h i s) y = Some nm -> exists n0, nth_error h y = Some n0 /\ rank n0 = rank nm).
      { intros y nm Ey. apply ranks_nth in Ey. rewrite HR in Ey. unfold ranks in Ey. rewrite nth_error_map in Ey.
        destruct (nth_error h y); simpl in Ey; [injection Ey as Ey; eauto|discriminate]. }
      destruct (FM _ _ Em) as (m0 & Em0 & Rm). rewrite <- Rm.
      assert (LF : forall z, (forall y n', nth_error h y = Some n' -> par n' <> Some z) -> z <> s ->
                   forall y n', nth_error (set_par h i s) y = Some n' -> par n' <> Some z).
      { intros z F Ns y n' Ey. destruct (Nat.eq_dec y i) as [->|N].
        - rewrite (set_par_self _ _ _ _ Ei) in Ey. injection Ey as <-. simpl. congruence.
        - rewrite set_par_other in Ey by auto. eauto. }
      destruct (Nat.eq_dec x i) as [->|N].
      + rewrite (set_par_self _ _ _ _ Ei) in E. injection E as <-. simpl in *. injection P as <-.
        inversion RI' as [|? n0 q k ? E0 P0 R0]; subst; [congruence|]. rewrite E0 in Ei. injection Ei as <-.
        destruct (nth_error_ex h q) as (nq & Eq); [apply rooted_valid in R0; tauto|].
        destruct (rooted_depth _ _ _ _ V R0 _ _ Eq Em0) as [_ B]. specialize (B ltac:(eauto)).
        destruct (i_rk _ V _ _ _ _ E0 P0 Eq) as [L|(Z & F)]; [left; lia|]. right. split; auto. apply LF; auto.
      + rewrite set_par_other in E by auto. destruct (i_rk _ V _ _ _ _ E P Em0) as [L|(Z & F)]; [left; auto|].
        right. split; auto. apply LF; auto. intros ->.
        pose proof (rooted_root _ _ _ _ RI') as (ns & Es & Ps). congruence.
    - intros z n E P. destruct (Nat.eq_dec z i) as [->|N].
      + rewrite (set_par_self _ _ _ _ Ei) in E. injection E as <-. discriminate.
      + rewrite set_par_other in E by auto. destruct (i_sz _ V _ _ E P) as (L & ND & HL & SZ).
        exists L. split; auto. split; auto. intros x Hx. apply (s_rep _ _ SS); auto.
  Qed.

  Lemma compress_ok : forall f h q k s, inv h -> rooted h q k s -> k <= f ->
    exists h', compress f h (Some q) (Some q) s = Ok h' /\ inv h' /\ same_sets h h'.
  Proof.
    induction f; intros h q k s V R L.
    - assert (k = 0) by lia. subst. inversion R; subst. simpl. rewrite Nat.eqb_refl. exists h. split; auto. split; auto. apply same_refl.
    - simpl compress. destruct (Nat.eqb_spec q s) as [->|NE]; [exists h; split; auto; split; auto; apply same_refl|].
      inversion R as [|? n p k0 ? E P R0]; subst; [congruence|]. rewrite E. simpl. rewrite P.
      destruct (shortcut_inv h q s V) as [V' SS]; [exists (S k0); auto|auto|].
      destruct (shortcut_rooted h q s (ex_intro _ _ R) NE p k0 s R0) as (k' & Lk & R').
      destruct (IHf (set_par h q s) p k' s V' R') as (h' & E' & V'' & SS'); [lia|].
      exists h'. split; auto. split; auto. eapply same_trans; eauto.
  Qed.

  Lemma find_ok h x : inv h -> x < length h ->
    exists r h', find h (Some x) = Ok (r, h') /\ rep h x r /\ inv h' /\ same_sets h h'.
  Proof.
    intros V L. destruct (i_all _ V x L) as (r & k & R). pose proof (rooted_short _ _ _ _ V R) as LK.
    unfold find. rewrite (climb_ok _ _ _ _ R) by auto. cbn [bind deref].
    destruct (nth_error_ex _ _ L) as (n & E). rewrite E. cbn [bind].
    inversion R as [? n0 E0 P0|? n0 p k0 ? E0 P0 R0]; subst.
    - assert (n = n0) by congruence. subst. rewrite P0. cbn [compress bind].
      exists r, h. split; auto. split; [exists 0; auto|]. split; auto. apply same_refl.
    - assert (n = n0) by congruence. subst. rewrite P0. simpl compress.
      destruct (Nat.eqb_spec p r) as [->|NE].
      + cbn [bind]. exists r, h. split; auto. split; [exists (S k0); auto|]. split; auto. apply same_refl.
      + rewrite E. cbn [bind]. rewrite P0. assert (NX : x <> r).
        { intros ->. pose proof (rooted_root _ _ _ _ R) as (m & Em & Pm). congruence. }
        destruct (shortcut_inv h x r V) as [V' SS]; [exists (S k0); auto|auto|].
        destruct (shortcut_rooted h x r (ex_intro _ _ R) NX p k0 r R0) as (k' & Lk & R').
        destruct (compress_ok (length h) (set_par h x r) p k' r V' R') as (h' & E' & V'' & SS'); [lia|].
        rewrite E'. cbn [bind]. exists r, h'. split; auto. split; [exists (S k0); auto|]. split; auto. eapply same_trans; eauto.
  Qed.

  (* ---- joining two trees ---- *)
  Lemma join_rooted h i s : rep h i i -> rep h s s -> i <> s ->
    (forall x r, rep h x r -> r <> i -> rep (set_par h i s) x r) /\
    (forall x, rep h x i -> rep (set_par h i s) x s).
  Proof.
    intros (ki & RI) (ks & RS) NE.
    pose proof (rooted_root _ _ _ _ RI) as (ni & Ei & Pi). pose proof (rooted_root _ _ _ _ RS) as (ns & Es & Ps).
    assert (RS' : rooted (set_par h i s) s 0 s) by (eapply rt0; [rewrite set_par_other; eauto|auto]).
    assert (G : forall x k r, rooted h x k r -> rep (set_par h i s) x (if Nat.eqb r i then s else r)).
    { intros x k r R. induction R as [x n E P|x n p k r E P R IH].
      - destruct (Nat.eqb_spec x i) as [->|N].
        + exists 1. eapply rtS; [eapply set_par_self; eauto|reflexivity|auto].
        + exists 0. eapply rt0; [rewrite set_par_other; eauto|auto].
      - destruct IH as (k' & R'). exists (S k'). assert (x <> i) by (intros ->; congruence).
        eapply rtS; [rewrite set_par_other; eauto|eauto|auto]. }
    split.
    - intros x r (k & R) N. specialize (G x k r R). destruct (Nat.eqb_spec r i); [contradiction|auto].
    - intros x (k & R). specialize (G x k i R). rewrite Nat.eqb_refl in G. auto.
  Qed.

  Lemma same_pars_rooted h h' : (forall x, option_map (@par T) (nth_error h' x) = option_map (@par T) (nth_error h x)) ->
    forall x k r, rooted h x k r -> rooted h' x k r.
  Proof.
    intros H x k r R. induction R as [x n E P|x n p k r E P R IH]; specialize (H x); rewrite E in H;
      destruct (nth_error h' x) as [n'|] eqn:E'; try discriminate; simpl in H; injection H as H.
    - eapply rt0; eauto; congruence.
    - eapply rtS; eauto; congruence.
  Qed.
  Lemma inc_rank_pars h i x : option_map (@par T) (nth_error (inc_rank h i) x) = option_map (@par T) (nth_error h x).
  Proof.
    unfold inc_rank. destruct (nth_error h i) eqn:E; auto. destruct (Nat.eq_dec x i) as [->|N].
    - rewrite upd_eq by eauto using nth_error_lt. rewrite E. reflexivity.
    - rewrite upd_neq by auto. reflexivity.
  Qed.
  Lemma inc_rank_rep h i x r : rep h x r <-> rep (inc_rank h i) x r.
  Proof.
    split; intros (k & R); exists k; (eapply same_pars_rooted; [|exact R]); intros; rewrite inc_rank_pars; auto.
  Qed.
  Lemma inc_rank_length h i : length (inc_rank h i) = length h.
  Proof. unfold inc_rank. destruct (nth_error h i); auto. apply upd_length. Qed.
  Lemma inc_rank_nth h i x n : nth_error h x = Some n ->
    nth_error (inc_rank h i) x = Some (Node (val n) (par n) (if Nat.eqb x i then S (rank n) else rank n)).
  Proof.
    intros E. unfold inc_rank. destruct (Nat.eqb_spec x i) as [->|N].
    - rewrite E. rewrite upd_eq by eauto using nth_error_lt. reflexivity.
    - destruct (nth_error h i); [rewrite upd_neq by auto|]; rewrite E; destruct n; reflexivity.
  Qed.

  Lemma nodup_join (L1 L2 : list nat) : NoDup L1 -> NoDup L2 -> (forall x, In x L1 -> In x L2 -> False) -> NoDup (L1 ++ L2).
  Proof.
    intros A B D. induction A; simpl; auto. constructor.
    - rewrite in_app_iff. intros [H1|H1]; auto. apply (D x); [left; auto|auto].
    - apply IHA. intros y H1 H2. apply (D y); [right; auto|auto].
  Qed.

  (* attach root i below root s; b says that the rank of s grows *)
  Lemma join_inv h i s ni ns (b : bool) : inv h -> i <> s ->
    nth_error h i = Some ni -> par ni = None -> nth_error h s = Some ns -> par ns = None ->
    rank ni < rank ns + (if b then 1 else 0) -> (b = true -> rank ni = rank ns) ->
    let h' := if b then inc_rank (set_par h i s) s else set_par h i s in
    inv h' /\ length h' = length h /\
    (forall x r, rep h x r -> r <> i -> rep h' x r) /\ (forall x, rep h x i -> rep h' x s).
  Proof.
    intros V NE Ei Pi Es Ps RK RB h'.
    assert (RI : rep h i i) by (exists 0; eapply rt0; eauto). assert (RS : rep h s s) by (exists 0; eapply rt0; eauto).
    destruct (join_rooted h i s RI RS NE) as [J1 J2].
    assert (LN : length h' = length h) by (subst h'; destruct b; rewrite ?inc_rank_length, ?set_par_length; auto).
    assert (K1 : forall x r, rep h x r -> r <> i -> rep h' x r).
    { intros. subst h'. destruct b; [rewrite <- inc_rank_rep|]; auto. }
    assert (K2 : forall x, rep h x i -> rep h' x s).
    { intros. subst h'. destruct b; [rewrite <- inc_rank_rep|]; auto. }
    split; auto.
    assert (FM : forall y nm, nth_error h' y = Some nm -> exists n0, nth_error h y = Some n0 /\
       rank nm = rank n0 + (if b && Nat.eqb y s then 1 else 0) /\ par nm = if Nat.eqb y i then Some s else par n0).
    { intros y nm Ey. destruct (nth_error_ex h y) as (n0 & E0); [rewrite <- LN; eauto using nth_error_lt|].
      exists n0. split; auto.
      assert (E1 : nth_error (set_par h i s) y = Some (Node (val n0) (if Nat.eqb y i then Some s else par n0) (rank n0))).
      { destruct (Nat.eqb_spec y i) as [->|N]; [apply set_par_self; auto|].
        rewrite set_par_other by auto. rewrite E0. destruct n0; reflexivity. }
      subst h'. destruct b; simpl.
      - rewrite (inc_rank_nth _ s _ _ E1) in Ey. injection Ey as <-. simpl. destruct (Nat.eqb y s); simpl; split; auto; lia.
      - rewrite E1 in Ey. injection Ey as <-. simpl. split; auto. }
    split.
    - intros x L. rewrite LN in L. destruct (i_all _ V x L) as (r & R). destruct (Nat.eq_dec r i) as [->|N]; eauto.
    - intros x n p m E P Em. destruct (FM _ _ E) as (n0 & E0 & R0 & P0). destruct (FM _ _ Em) as (m0 & Em0 & Rm & _).
      rewrite P0 in P. destruct (Nat.eqb_spec x i) as [->|N].
      + injection P as <-. left. assert (n0 = ni) by congruence. assert (m0 = ns) by congruence. subst.
        rewrite Nat.eqb_refl in Rm. destruct (Nat.eqb_spec i s); [contradiction|]. rewrite andb_false_r in R0. rewrite andb_true_r in Rm.
        destruct b; lia.
      + assert (x <> s) by (intros ->; congruence). destruct (Nat.eqb_spec x s); [contradiction|]. rewrite andb_false_r in R0.
        destruct (i_rk _ V _ _ _ _ E0 P Em0) as [L|(Z & F)]; [left; lia|]. right. split; [lia|].
        intros y n' Ey. destruct (FM _ _ Ey) as (y0 & Ey0 & _ & Py0). rewrite Py0. destruct (Nat.eqb_spec y i); [congruence|eauto].
    - intros z n E P. destruct (FM _ _ E) as (n0 & E0 & R0 & P0). rewrite P0 in P.
      destruct (Nat.eqb_spec z i) as [->|N]; [discriminate|]. destruct (i_sz _ V _ _ E0 P) as (L & ND & HL & SZ).
      destruct (Nat.eqb_spec z s) as [->|NS].
      + assert (n0 = ns) by congruence. subst. destruct (i_sz _ V _ _ Ei Pi) as (L2 & ND2 & HL2 & SZ2).
        exists (L ++ L2). split; [apply nodup_join; auto|split].
        * intros x A B. apply NE. eapply (rep_det h x); auto.
        * intros x Hx. apply in_app_or in Hx. destruct Hx; auto.
        * rewrite app_length, R0, andb_true_r. destruct b; [|rewrite Nat.add_0_r; lia].
          rewrite (RB eq_refl) in SZ2. rewrite Nat.add_1_r. simpl. lia.
      + rewrite andb_false_r, Nat.add_0_r in R0. exists L. split; auto. split; [intros; apply K1; auto|]. rewrite R0. auto.
  Qed.

  Lemma assert_set_ok h s i : assert_set h (Some s) = Ok i -> i = s /\ exists n, nth_error h s = Some n /\ par n = None.
  Proof.
    unfold assert_set, deref. destruct (nth_error h s) as [n|] eqn:E; simpl; [|discriminate].
    destruct (par n) eqn:P; [discriminate|]. intros [= <-]. eauto.
  Qed.

  Lemma combine_spec h s1 s2 r h' : inv h -> combine h (Some s1) (Some s2) = Ok (r, h') ->
    inv h' /\ length h' = length h /\ (r = s1 \/ r = s2) /\ rep h s1 s1 /\ rep h s2 s2 /\
    (forall x t, rep h x t -> rep h' x (if Nat.eqb t s1 || Nat.eqb t s2 then r else t)).
  Proof.
    intros V C. unfold combine in C. apply bind_ok in C. destruct C as (i & A1 & C).
    apply bind_ok in C. destruct C as (j & A2 & C).
    destruct (assert_set_ok _ _ _ A1) as (-> & n1 & E1 & P1). destruct (assert_set_ok _ _ _ A2) as (-> & n2 & E2 & P2).
    assert (R1 : rep h s1 s1) by (exists 0; eapply rt0; eauto). assert (R2 : rep h s2 s2) by (exists 0; eapply rt0; eauto).
    destruct (Nat.eqb_spec s1 s2) as [->|NE].
    { injection C as <- <-. split; auto. split; auto. split; auto. split; auto. split; auto. intros x t H.
      destruct (Nat.eqb_spec t s2) as [->|]; simpl; auto. }
    unfold deref in C. rewrite E1, E2 in C. cbn [bind] in C.
    assert (FIN : forall i s (b : bool), i <> s -> (s = r) -> (i = s1 /\ s = s2 \/ i = s2 /\ s = s1) ->
       (forall x r0, rep h x r0 -> r0 <> i -> rep h' x r0) /\ (forall x, rep h x i -> rep h' x s) ->
       forall x t, rep h x t -> rep h' x (if Nat.eqb t s1 || Nat.eqb t s2 then r else t)).
    { intros i s b N <- O (K1 & K2) x t H.
      destruct (Nat.eqb_spec t s1), (Nat.eqb_spec t s2); simpl; subst; destruct O as [[-> ->]|[-> ->]]; auto. }
    destruct (Nat.ltb_spec (rank n2) (rank n1)).
    - injection C as <- <-. destruct (join_inv h s2 s1 n2 n1 false V) as (V' & LN & K); auto; try lia; try congruence.
      repeat (split; auto). eapply (FIN s2 s1 false); eauto.
    - destruct (Nat.ltb_spec (rank n1) (rank n2)); injection C as <- <-.
      + destruct (join_inv h s1 s2 n1 n2 false V) as (V' & LN & K); auto; try lia; try congruence.
        repeat (split; auto). eapply (FIN s1 s2 false); eauto.
      + destruct (join_inv h s2 s1 n2 n1 true V) as (V' & LN & K); auto; try lia; try congruence.
        repeat (split; auto). eapply (FIN s2 s1 true); eauto.
  Qed.

  Lemma combine_total h s1 s2 : rep h s1 s1 -> rep h s2 s2 -> exists r h', combine h (Some s1) (Some s2) = Ok (r, h').
  Proof.
    intros (k1 & R1) (k2 & R2). destruct (rooted_root _ _ _ _ R1) as (n1 & E1 & P1). destruct (rooted_root _ _ _ _ R2) as (n2 & E2 & P2).
    unfold combine, assert_set, deref. rewrite E1, E2. cbn [bind]. rewrite P1, P2. cbn [bind].
    destruct (Nat.eqb s1 s2); eauto. destruct (Nat.ltb _ _); eauto. destruct (Nat.ltb _ _); eauto.
  Qed.

  (* ---- adding a node ---- *)
  Lemma app_rooted h n x k r : rooted h x k r -> rooted (h ++ [n]) x k r.
  Proof.
    induction 1; [eapply rt0|eapply rtS]; eauto; rewrite nth_error_app1; eauto using nth_error_lt.
  Qed.
  Lemma app_rep h n x r : rep h x r -> rep (h ++ [n]) x r.
  Proof. intros (k & R). exists k. apply app_rooted; auto. Qed.
  Lemma app_back h n x r : inv h -> rep (h ++ [n]) x r -> x < length h -> rep h x r.
  Proof. intros V R L. destruct (i_all _ V x L) as (r' & R'). rewrite (rep_det _ _ _ _ R (app_rep _ n _ _ R')). auto. Qed.

  Lemma app_nth h n x m : nth_error (h ++ [n]) x = Some m -> (x < length h /\ nth_error h x = Some m) \/ (x = length h /\ m = n).
  Proof.
    intros E. destruct (lt_dec x (length h)) as [L|L]; [left; split; auto; rewrite nth_error_app1 in E; auto|].
    assert (x < length (h ++ [n])) by eauto using nth_error_lt. rewrite app_length in H. simpl in H.
    assert (x = length h) by lia. subst. rewrite nth_error_snoc in E. injection E as <-. auto.
  Qed.

  Lemma par_valid h x n p : inv h -> nth_error h x = Some n -> par n = Some p -> p < length h.
  Proof.
    intros V E P. destruct (i_all _ V x) as (r & k & R); [eauto using nth_error_lt|].
    inversion R; subst; [congruence|]. assert (p = p0) by congruence. subst. apply rooted_valid in H1. tauto.
  Qed.

  Lemma app_inv h v s : inv h -> (forall p, s = Some p -> rep h p p) -> inv (h ++ [Node v s 0]) /\
    rep (h ++ [Node v s 0]) (length h) (match s with None => length h | Some p => p end).
  Proof.
    intros V HS.
    assert (RN : rep (h ++ [Node v s 0]) (length h) (match s with None => length h | Some p => p end)).
    { destruct s as [p|].
      - destruct (HS p eq_refl) as (k & R). exists (S k). eapply rtS; [apply nth_error_snoc|reflexivity|]. apply app_rooted; auto.
      - exists 0. eapply rt0; [apply nth_error_snoc|reflexivity]. }
    split; auto. split.
    - intros x L. rewrite app_length in L. simpl in L. destruct (Nat.eq_dec x (length h)) as [->|N]; eauto.
      destruct (i_all _ V x) as (r & R); [lia|]. exists r. apply app_rep; auto.
    - intros x n p m E P Em. destruct (app_nth _ _ _ _ E) as [[L E0]|[-> ->]].
      + assert (LP := par_valid _ _ _ _ V E0 P). rewrite nth_error_app1 in Em by auto.
        destruct (i_rk _ V _ _ _ _ E0 P Em) as [H|(Z & F)]; [left; auto|right; split; auto].
        intros y n' Ey. destruct (app_nth _ _ _ _ Ey) as [[Ly Ey0]|[-> ->]]; [eauto|]. simpl. intros ->.
        destruct (HS x eq_refl) as (k & R). destruct (rooted_root _ _ _ _ R) as (nn & En & Pn). congruence.
      + right. split; auto. intros y n' Ey Py. destruct (app_nth _ _ _ _ Ey) as [[Ly Ey0]|[-> ->]].
        * pose proof (par_valid _ _ _ _ V Ey0 Py). lia.
        * simpl in Py. destruct (HS _ Py) as (k & R). apply rooted_valid in R. lia.
    - intros z n E P. destruct (app_nth _ _ _ _ E) as [[L E0]|[-> ->]].
      + destruct (i_sz _ V _ _ E0 P) as (L0 & ND & HL & SZ). exists L0. split; auto. split; auto. intros; apply app_rep; auto.
      + simpl in P. subst. exists [length h]. split; [repeat constructor; simpl; tauto|]. split; [|simpl; lia].
        intros x [<-|[]]. auto.
  Qed.

  (* ---- all histories ---- *)
  Record good h (E : list (nat * nat)) : Prop := {
    g_inv : inv h;
    g_in : forall x y, In (x, y) E -> x < length h /\ y < length h;
    g_part : forall x y r t, rep h x r -> rep h y t -> (r = t <-> linked E x y) }.

  Lemma linked_in (E : list (nat * nat)) N x y : (forall a b, In (a, b) E -> a < N /\ b < N) ->
    linked E x y -> x = y \/ (x < N /\ y < N).
  Proof. intros I H. induction H as [|a b H|a b H IH|a b c H1 IH1 H2 IH2]; [left; auto|right; apply I; auto|intuition|]. destruct IH1, IH2; subst; auto. right; intuition. Qed.

  Lemma good_same h E h' : good h E -> inv h' -> same_sets h h' -> good h' E.
  Proof.
    intros [V I P] V' SS. split; auto.
    - rewrite (s_len _ _ SS). auto.
    - intros x y r t H1 H2. apply P; eapply same_back; eauto.
  Qed.
  Lemma good_find h E e r h' : good h E -> find h e = Ok (r, h') -> good h' E.
  Proof.
    intros G F. destruct e as [x|]; [|discriminate].
    assert (L : x < length h).
    { destruct (le_lt_dec (length h) x) as [L|]; auto. exfalso. unfold find in F.
      assert (N : nth_error h x = None) by (apply nth_error_None; auto).
      destruct (length h); simpl in F; rewrite N in F; discriminate. }
    destruct (find_ok h x (g_inv _ _ G) L) as (r0 & h0 & F0 & _ & V' & SS). rewrite F0 in F. injection F as <- <-.
    eapply good_same; eauto.
  Qed.

  Lemma history_good eqb h E : history (T:=T) eqb h E -> good h E.
  Proof.
    induction 1.
    - split; [split|..].
      + intros; simpl in *; lia.
      + intros x n p m E. destruct x; discriminate.
      + intros s n E. destruct s; discriminate.
      + intros x y [].
      + intros x y r t (k & R). apply rooted_valid in R. simpl in R. lia.
    - destruct IHhistory as [V I P]. unfold insert. simpl.
      destruct (app_inv h v None V) as [V' RN]; [discriminate|]. split; auto.
      + intros x y Hin. destruct (I x y Hin). rewrite app_length. lia.
      + intros x y r t H1 H2.
        assert (LX : x < length (h ++ [Node v None 0])) by (destruct H1 as (k & R); apply rooted_valid in R; tauto).
        assert (LY : y < length (h ++ [Node v None 0])) by (destruct H2 as (k & R); apply rooted_valid in R; tauto).
        rewrite app_length in LX, LY. simpl in LX, LY.
        destruct (Nat.eq_dec x (length h)) as [->|NX], (Nat.eq_dec y (length h)) as [->|NY].
        * split; intros _; [constructor|eapply rep_det; eauto].
        * rewrite (rep_det _ _ _ _ H1 RN). assert (R2 : rep h y t) by (eapply app_back; eauto; lia).
          split; intros Q; [subst; destruct R2 as (k & R); apply rooted_valid in R; lia|].
          destruct (linked_in E _ _ _ I Q); lia.
        * rewrite (rep_det _ _ _ _ H2 RN). assert (R2 : rep h x r) by (eapply app_back; eauto; lia).
          split; intros Q; [subst; destruct R2 as (k & R); apply rooted_valid in R; lia|].
          destruct (linked_in E _ _ _ I Q); lia.
        * apply P; eapply app_back; eauto; lia.
    - destruct IHhistory as [V I P]. unfold insert_in in H0. apply bind_ok in H0. destruct H0 as (i & A & H0). injection H0 as <- <-.
      destruct (assert_set_ok _ _ _ A) as (-> & ns & Es & Ps).
      assert (RS : rep h s s) by (exists 0; eapply rt0; eauto).
      destruct (app_inv h v (Some s) V) as [V' RN]; [intros p [= <-]; auto|]. split; auto.
      + intros x y [Hin|Hin]; rewrite app_length; simpl.
        * injection Hin as <- <-. apply nth_error_lt in Es. lia.
        * destruct (I x y Hin). lia.
      + intros x y r t H1 H2. rewrite linked_cons.
        assert (LX : x < length (h ++ [Node v (Some s) 0])) by (destruct H1 as (k & R); apply rooted_valid in R; tauto).
        assert (LY : y < length (h ++ [Node v (Some s) 0])) by (destruct H2 as (k & R); apply rooted_valid in R; tauto).
        rewrite app_length in LX, LY. simpl in LX, LY.
        assert (NL : forall a, linked E (length h) a -> a = length h) by (intros a Q; destruct (linked_in E _ _ _ I Q); lia).
        assert (NL' : forall a, linked E a (length h) -> a = length h) by (intros a Q; destruct (linked_in E _ _ _ I Q); lia).
        destruct (Nat.eq_dec x (length h)) as [->|NX], (Nat.eq_dec y (length h)) as [->|NY].
        * split; intros _; [left; constructor|eapply rep_det; eauto].
        * rewrite (rep_det _ _ _ _ H1 RN). assert (R2 : rep h y t) by (eapply app_back; eauto; lia).
          rewrite (P s y s t RS R2). split; [intros Q; right; left; split; [constructor|auto]|].
          intros [Q|[[Q Q']|[Q Q']]]; [apply NL in Q; lia|auto|apply NL in Q'; lia].
        * rewrite (rep_det _ _ _ _ H2 RN). assert (R2 : rep h x r) by (eapply app_back; eauto; lia).
          rewrite (P x s r s R2 RS). split; [intros Q; right; right; split; [auto|constructor]|].
          intros [Q|[[Q Q']|[Q Q']]]; [apply NL' in Q; lia|apply NL' in Q; lia|auto].
        * assert (R1 : rep h x r) by (eapply app_back; eauto; lia). assert (R2 : rep h y t) by (eapply app_back; eauto; lia).
          rewrite (P x y r t R1 R2). split; [auto|]. intros [Q|[[Q Q']|[Q Q']]]; auto; [apply NL' in Q; lia|apply NL in Q'; lia].
    - destruct IHhistory as [V I P]. destruct (combine_spec _ _ _ _ _ V H0) as (V' & LN & RR & R1 & R2 & K). split; auto.
      + rewrite LN. intros x y [Hin|Hin]; auto. injection Hin as <- <-.
        destruct R1 as (k1 & R1). destruct R2 as (k2 & R2). apply rooted_valid in R1. apply rooted_valid in R2. lia.
      + intros x y a b H1 H2. rewrite linked_cons.
        assert (LX : x < length h) by (rewrite <- LN; destruct H1 as (k & R); apply rooted_valid in R; tauto).
        assert (LY : y < length h) by (rewrite <- LN; destruct H2 as (k & R); apply rooted_valid in R; tauto).
        destruct (i_all _ V x LX) as (rx & RX). destruct (i_all _ V y LY) as (ry & RY).
        rewrite (rep_det _ _ _ _ H1 (K _ _ RX)), (rep_det _ _ _ _ H2 (K _ _ RY)).
        rewrite <- (P x y rx ry RX RY), <- (P x s1 rx s1 RX R1), <- (P x s2 rx s2 RX R2), <- (P s1 y s1 ry R1 RY), <- (P s2 y s2 ry R2 RY).
        destruct (Nat.eqb_spec rx s1), (Nat.eqb_spec rx s2), (Nat.eqb_spec ry s1), (Nat.eqb_spec ry s2), RR; subst; simpl; lia.
    - eapply good_find; eauto.
    - unfold find_val in H0. destruct (first_with eqb h v 0) as [i|]; [|injection H0 as <- <-; auto].
      apply bind_ok in H0. destruct H0 as ([s h0] & F & H0). injection H0 as <- <-. eapply good_find; eauto.
  Qed.
End P.
