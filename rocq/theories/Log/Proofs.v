(** The system log: proofs. *)
From Verif Require Import Lib.Base Lib.Lists Lib.Str Log.Model Log.Spec.
From Coq Require Import List Arith Bool ZArith Ascii String Sorted Lia.
Import ListNotations.
Open Scope list_scope.

Lemma find_star a b : ~ In star a -> sfind [star] (a ++ star :: b) = Some (List.length a).
Proof.
  induction a as [|c a IH]; intros N.
  - reflexivity.
  - cbn [app sfind starts]. destruct (Ascii.eqb_spec star c) as [E|E]; [exfalso; apply N; left; congruence|].
    cbn [andb]. rewrite IH by (intros J; apply N; right; exact J). reflexivity.
Qed.

Lemma find_no_star p : ~ In star p -> sfind [star] p = None.
Proof.
  induction p as [|c p IH]; intros N; [reflexivity|]. cbn [sfind starts].
  destruct (Ascii.eqb_spec star c) as [E|E]; [exfalso; apply N; left; congruence|].
  cbn [andb]. rewrite IH by (intros J; apply N; right; exact J). reflexivity.
Qed.

Lemma ends_spec t p : ends t p = true <-> exists a, t = a ++ p.
Proof.
  unfold ends. rewrite starts_spec. split.
  - intros (u & E). exists (rev u). rewrite <- (rev_involutive t), E, rev_app_distr, rev_involutive. reflexivity.
  - intros (a & ->). exists (rev a). apply rev_app_distr.
Qed.

Lemma star_app_inj (q q' : str) : q ++ [star] = q' ++ [star] -> q = q'.
Proof. apply app_inj_tail. Qed.

Lemma match_iff p s : legal p -> wildcard_match p s = true <-> stands_for p s.
Proof.
  intros L. unfold wildcard_match. destruct (str_eqb p [star]) eqn:E1.
  - apply str_eqb_spec in E1. subst p. split; [intros _|reflexivity].
    right. left. exists [], s. rewrite app_nil_r. auto.
  - apply str_eqb_false in E1. destruct L as [N|(q & N & [->| ->])].
    + rewrite find_no_star by exact N. rewrite str_eqb_spec. split; [intros ->; left; auto|].
      intros [(_ & ->)|[(q & a & -> & _)|[(q & a & -> & _)| ->]]]; [reflexivity|exfalso; apply N..].
      * left. reflexivity.
      * apply in_app_iff. right. left. reflexivity.
      * apply in_app_iff. right. right. left. reflexivity.
    + change (star :: q) with ([] ++ star :: q). rewrite find_star by (intros []). cbn [List.length Nat.eqb app skipn].
      rewrite ends_spec. split.
      * intros (a & ->). right. left. exists q, a. auto.
      * intros [(F & _)|[(q' & a & [= ->] & ->)|[(q' & a & E & _)|E]]].
        -- exfalso. apply F. left. reflexivity.
        -- eauto.
        -- exfalso. destruct q' as [|c q']; [injection E as ->; congruence|]. injection E as <- E. apply N. rewrite E.
           apply in_app_iff. right. left. reflexivity.
        -- exfalso. destruct s as [|c s]; [discriminate E|]. injection E as <- E. apply N. rewrite E.
           apply in_app_iff. right. right. left. reflexivity.
    + assert (Nq : q <> []) by (intros ->; apply E1; reflexivity).
      rewrite find_star by exact N. destruct (Nat.eqb_spec (List.length q) 0) as [Z0|Z0]; [destruct q; [congruence|discriminate]|].
      rewrite app_length. cbn [List.length]. destruct (Nat.ltb_spec 1 (List.length q + 1)); [|lia]. cbn [andb].
      assert (F1 : firstn (List.length q) (q ++ [star]) = q).
      { rewrite firstn_app, Nat.sub_diag, firstn_all. cbn [firstn]. apply app_nil_r. }
      rewrite F1.
      assert (Dot : Ascii.eqb (nth (List.length q - 1) (q ++ [star]) star) dot = true <-> exists r, q = r ++ [dot]).
      { rewrite Ascii.eqb_eq. rewrite app_nth1 by lia. destruct (exists_last Nq) as (r & c & ->). rewrite app_length. cbn [List.length].
        replace (List.length r + 1 - 1)%nat with (List.length r) by lia. rewrite app_nth2, Nat.sub_diag by lia. cbn [nth]. split.
        - intros ->. eauto.
        - intros (r' & E). apply app_inj_tail in E. tauto. }
      assert (F2 : forall r, q = r ++ [dot] -> firstn (List.length q - 1) (q ++ [star]) = r).
      { intros r ->. rewrite app_length. cbn [List.length]. replace (List.length r + 1 - 1)%nat with (List.length r) by lia.
        rewrite <- app_assoc, firstn_app, Nat.sub_diag, firstn_all. cbn [firstn]. apply app_nil_r. }
      assert (Rhs : stands_for (q ++ [star]) s <-> (exists r, q = r ++ [dot] /\ s = r) \/ exists a, s = q ++ a).
      { split.
        - intros [(F & _)|[(q' & a & E & _)|[(q' & a & E & ->)|E]]].
          + exfalso. apply F. apply in_app_iff. right. left. reflexivity.
          + exfalso. destruct q as [|c q0]; [congruence|]. injection E as -> _. apply N. left. reflexivity.
          + apply star_app_inj in E. subst q'. right. eauto.
          + left. exists s. change [dot; star] with ([dot] ++ [star]) in E. rewrite app_assoc in E. apply star_app_inj in E. auto.
        - intros [(r & -> & ->)|(a & ->)].
          + do 3 right. rewrite <- app_assoc. reflexivity.
          + right. right. left. eauto. }
      rewrite Rhs. destruct (Ascii.eqb (nth (List.length q - 1) (q ++ [star]) star) dot) eqn:Ed; cbn [andb].
      * pose proof (proj1 Dot eq_refl) as (r & Er). rewrite (F2 r Er).
        destruct (str_eqb s r) eqn:Es.
        -- apply str_eqb_spec in Es. split; [intros _; left; eauto|reflexivity].
        -- apply str_eqb_false in Es. rewrite starts_spec. split; [intros HH; right; exact HH|].
           intros [(r' & Er' & ->)|HH]; [|exact HH]. exfalso. apply Es. rewrite Er in Er'. apply app_inj_tail in Er'. symmetry. apply Er'.
      * rewrite starts_spec. split; [intros HH; right; exact HH|]. intros [(r & Er & _)|HH]; [|exact HH].
        assert (false = true) by (apply Dot; eauto). discriminate.
Qed.

(** ** Adding rules *)

Lemma count_star_0 p : count (Ascii.eqb star) p = 0%nat <-> ~ In star p.
Proof.
  unfold count. split.
  - intros H J. assert (In star (filter (Ascii.eqb star) p)) by (apply filter_In; split; [exact J|apply Ascii.eqb_refl]).
    destruct (filter (Ascii.eqb star) p); [contradiction|discriminate].
  - intros N. induction p as [|c p IH]; [reflexivity|]. cbn [filter].
    destruct (Ascii.eqb_spec star c) as [E|E]; [exfalso; apply N; left; congruence|]. apply IH. intros J. apply N. right. exact J.
Qed.

Lemma count_star_app a b : count (Ascii.eqb star) (a ++ b) = (count (Ascii.eqb star) a + count (Ascii.eqb star) b)%nat.
Proof. apply count_app. Qed.

Lemma last_star q : last (q ++ [star]) star = star.
Proof. apply last_last. Qed.

Lemma add_rule_iff rules lvl p :
  (legal p -> add_rule rules lvl p = Ok ((lvl, to_lower p) :: rules)) /\
  (~ legal p -> add_rule rules lvl p = Throw ArgumentErr).
Proof.
  unfold add_rule. set (n := count (Ascii.eqb star) p). split.
  - intros [N|(q & N & [->| ->])].
    + apply count_star_0 in N. fold n in N. rewrite N. reflexivity.
    + assert (E : n = 1%nat). { unfold n. change (star :: q) with ([star] ++ q). rewrite count_star_app. apply count_star_0 in N. rewrite N. reflexivity. }
      rewrite E. cbn [Nat.ltb Nat.leb Nat.eqb hd]. rewrite Ascii.eqb_refl. reflexivity.
    + assert (E : n = 1%nat). { unfold n. rewrite count_star_app. apply count_star_0 in N. rewrite N. reflexivity. }
      rewrite E, last_star, Ascii.eqb_refl. cbn [negb]. rewrite andb_false_r. reflexivity.
  - intros NL. destruct (Nat.ltb_spec 1 n) as [H|H]; [reflexivity|].
    destruct (Nat.eqb_spec n 1) as [E|E].
    + destruct (Ascii.eqb_spec (hd star p) star) as [Eh|Eh].
      * exfalso. apply NL. right. destruct p as [|c q]; [discriminate|]. cbn [hd] in Eh. subst c. exists q. split; [|left; reflexivity].
        apply count_star_0. unfold n in E. change (star :: q) with ([star] ++ q) in E. rewrite count_star_app in E. cbn in E. unfold count in *. lia.
      * destruct (Ascii.eqb_spec (last p star) star) as [El|El]; [|reflexivity].
        exfalso. apply NL. right. assert (Np : p <> []) by (intros ->; discriminate).
        destruct (exists_last Np) as (q & c & ->). rewrite last_last in El. subst c. exists q. split; [|right; reflexivity].
        apply count_star_0. unfold n in E. rewrite count_star_app in E. change (count (Ascii.eqb star) [star]) with 1%nat in E. lia.
    + exfalso. apply NL. left. apply count_star_0. fold n. lia.
Qed.

Lemma lower_star c : lower_char c = star <-> c = star.
Proof.
  unfold lower_char. destruct (_ && _) eqn:E.
  - apply andb_true_iff in E as (E1 & E2). apply Nat.leb_le in E1, E2. split.
    + intros H. assert (X : nat_of_ascii (ascii_of_nat (nat_of_ascii c + 32)) = nat_of_ascii star) by congruence.
      rewrite nat_ascii_embedding in X by lia. change (nat_of_ascii star) with 42%nat in X. lia.
    + intros ->. change (nat_of_ascii star) with 42%nat in E1. lia.
  - reflexivity.
Qed.

Lemma lower_in_star p : In star (to_lower p) <-> In star p.
Proof.
  unfold to_lower. rewrite in_map_iff. split.
  - intros (c & E & J). apply (proj1 (lower_star _)) in E. subst c. exact J.
  - intros J. exists star. split; [reflexivity|exact J].
Qed.

Lemma lower_legal p : legal p -> legal (to_lower p).
Proof.
  intros [N|(q & N & E)]; [left|right].
  - rewrite lower_in_star. exact N.
  - exists (to_lower q). rewrite lower_in_star. split; [exact N|]. unfold to_lower. destruct E as [->| ->]; [left; reflexivity|right].
    rewrite map_app. reflexivity.
Qed.

Lemma legal_dec p : legal p \/ ~ legal p.
Proof.
  destruct (add_rule [] 0 p) as [r| |] eqn:E.
  - left. unfold add_rule in E. destruct (_ <? _)%nat eqn:E1; [discriminate|]. destruct (_ && _ && _) eqn:E2; [discriminate|]. clear E.
    apply Nat.ltb_ge in E1. destruct (count (Ascii.eqb star) p) as [|[|n]] eqn:Ec; [left; apply count_star_0; exact Ec| |lia].
    right. cbn [Nat.eqb andb] in E2. apply andb_false_iff in E2 as [E2|E2]; apply negb_false_iff, Ascii.eqb_eq in E2.
    + destruct p as [|c q]; [discriminate|]. cbn [hd] in E2. subst c. exists q. split; [|left; reflexivity].
      apply count_star_0. change (star :: q) with ([star] ++ q) in Ec. rewrite count_star_app in Ec. change (count (Ascii.eqb star) [star]) with 1%nat in Ec. lia.
    + assert (Np : p <> []) by (intros ->; discriminate). destruct (exists_last Np) as (q & c & ->). rewrite last_last in E2. subst c.
      exists q. split; [|right; reflexivity]. apply count_star_0. rewrite count_star_app in Ec. change (count (Ascii.eqb star) [star]) with 1%nat in Ec. lia.
  - right. intros L. rewrite (proj1 (add_rule_iff [] 0 p) L) in E. discriminate.
  - right. intros L. rewrite (proj1 (add_rule_iff [] 0 p) L) in E. discriminate.
Qed.

Lemma rules_snoc h c : rules_after (h ++ [c]) = rule_step (rules_after h) c.
Proof. unfold rules_after. rewrite fold_left_app. reflexivity. Qed.

Lemma decides_passes h ns : forall rl lvl, decides h ns rl -> passes (rules_after h) lvl ns = grants rl lvl.
Proof.
  intros rl lvl. revert rl. induction h as [|c h IH] using rev_ind; intros rl (pre & p & post & E & L & M & Nc & Nm).
  - destruct pre; discriminate.
  - rewrite rules_snoc. destruct post as [|c' post] using rev_ind.
    + apply app_inj_tail in E as (-> & ->). cbn [rule_step]. rewrite (proj1 (add_rule_iff _ rl p) L). cbn [passes].
      apply match_iff in M; [|apply lower_legal; exact L]. rewrite M. cbn [negb]. unfold grants, EveryMessage.
      destruct (rl =? 100)%Z; reflexivity.
    + clear IHpost. rewrite app_comm_cons, app_assoc in E. apply app_inj_tail in E as (-> & ->).
      assert (D : decides (pre ++ AddRule rl p :: post) ns rl).
      { exists pre, p, post. split; [reflexivity|]. split; [exact L|]. split; [exact M|]. split.
        - intros J. apply Nc. apply in_app_iff. left. exact J.
        - intros rl' p' J. apply (Nm rl' p'). apply in_app_iff. left. exact J. }
      specialize (IH rl D). destruct c' as [rl' p'|].
      * cbn [rule_step]. destruct (legal_dec p') as [L'|L'].
        -- rewrite (proj1 (add_rule_iff _ rl' p') L'). cbn [passes].
           destruct (wildcard_match (to_lower p') (to_lower ns)) eqn:W; [|exact IH].
           apply match_iff in W; [|apply lower_legal; exact L']. exfalso.
           apply (Nm rl' p'); [apply in_app_iff; right; left; reflexivity|exact L'|exact W].
        -- rewrite (proj2 (add_rule_iff _ rl' p') L'). exact IH.
      * exfalso. apply Nc. apply in_app_iff. right. left. reflexivity.
Qed.

Lemma no_decider h ns lvl : (forall rl, ~ decides h ns rl) -> passes (rules_after h) lvl ns = default_rule lvl ns.
Proof.
  induction h as [|c h IH] using rev_ind; intros N; [reflexivity|]. rewrite rules_snoc.
  destruct c as [rl p|]; [|reflexivity]. cbn [rule_step].
  assert (N' : (forall rl0, ~ decides h ns rl0) \/ legal p /\ stands_for (to_lower p) (to_lower ns)).
  { destruct (legal_dec p) as [L|L].
    - destruct (wildcard_match (to_lower p) (to_lower ns)) eqn:W.
      + apply match_iff in W; [|apply lower_legal; exact L]. auto.
      + left. intros rl0 (pre & q & post & -> & Lq & M & Nc & Nm). apply (N rl0). exists pre, q, (post ++ [AddRule rl p]).
        rewrite <- app_assoc. split; [reflexivity|]. split; [exact Lq|]. split; [exact M|]. split.
        * intros J. apply in_app_iff in J as [J|[J|[]]]; [auto|discriminate].
        * intros rl' p' J L' S'. apply in_app_iff in J as [J|[J|[]]]; [eapply Nm; eauto|]. injection J as <- <-.
          apply match_iff in S'; [congruence|apply lower_legal; exact L].
    - left. intros rl0 (pre & q & post & -> & Lq & M & Nc & Nm). apply (N rl0). exists pre, q, (post ++ [AddRule rl p]).
      rewrite <- app_assoc. split; [reflexivity|]. split; [exact Lq|]. split; [exact M|]. split.
      + intros J. apply in_app_iff in J as [J|[J|[]]]; [auto|discriminate].
      + intros rl' p' J L' S'. apply in_app_iff in J as [J|[J|[]]]; [eapply Nm; eauto|]. injection J as <- <-. contradiction. }
  destruct N' as [N'|(L & M)].
  - destruct (legal_dec p) as [L|L].
    + rewrite (proj1 (add_rule_iff _ rl p) L). cbn [passes].
      destruct (wildcard_match (to_lower p) (to_lower ns)) eqn:W; [|apply IH; exact N']. exfalso. apply (N rl).
      exists h, p, []. split; [reflexivity|]. split; [exact L|]. split; [apply match_iff in W; [exact W|apply lower_legal; exact L]|].
      split; [intros []|intros ? ? []].
    + rewrite (proj2 (add_rule_iff _ rl p) L). apply IH. exact N'.
  - exfalso. apply (N rl). exists h, p, []. split; [reflexivity|]. split; [exact L|]. split; [exact M|]. split; [intros []|intros ? ? []].
Qed.

(** ** Fan-out *)

Lemma enabled_in logs lvl ns : forall k i, In i (enabled_logs k logs lvl ns) <->
  k <= i /\ exists r, nth_error logs (i - k) = Some r /\ passes r lvl ns = true.
Proof.
  induction logs as [|r logs IH]; intros k i; cbn [enabled_logs].
  - split; [intros []|intros (_ & r & E & _)]. destruct (i - k); discriminate.
  - assert (X : k <= i /\ (exists r0, nth_error (r :: logs) (i - k) = Some r0 /\ passes r0 lvl ns = true) <->
                (i = k /\ passes r lvl ns = true) \/ In i (enabled_logs (S k) logs lvl ns)).
    { rewrite IH. split.
      - intros (Hk & r0 & E & P). destruct (i - k) as [|j] eqn:Ej.
        + left. injection E as ->. split; [lia|exact P].
        + right. split; [lia|]. exists r0. replace (i - S k) with j by lia. auto.
      - intros [(-> & P)|(Hk & r0 & E & P)].
        + split; [lia|]. exists r. rewrite Nat.sub_diag. auto.
        + split; [lia|]. exists r0. replace (i - k) with (S (i - S k)) by lia. auto. }
    rewrite X. destruct (passes r lvl ns); cbn [In]; split.
    + intros [H|H]; [left; auto|right; exact H].
    + intros [(H & _)|H]; [left; auto|right; exact H].
    + intros H. right. exact H.
    + intros [(_ & H)|H]; [discriminate|exact H].
Qed.

Lemma enabled_sorted logs lvl ns : forall k, Sorted.StronglySorted lt (enabled_logs k logs lvl ns).
Proof.
  induction logs as [|r logs IH]; intros k; cbn [enabled_logs]; [constructor|].
  destruct (passes r lvl ns); [constructor; [apply IH|]|apply IH].
  apply Forall_forall. intros x Hx. apply enabled_in in Hx. lia.
Qed.

(** ** Buffers *)

Lemma chunks_app t l m : chunks_of t (l ++ m) = chunks_of t l ++ chunks_of t m.
Proof. apply flat_map_app. Qed.

Lemma locked_sync_keeps b t u : chunks_of u (sent (locked_sync b t)) ++ buffers (locked_sync b t) u = chunks_of u (sent b) ++ buffers b u.
Proof.
  unfold locked_sync. destruct (buffers b t) as [|c s] eqn:E; [reflexivity|]. destruct (out b); [|reflexivity]. cbn [sent buffers].
  rewrite chunks_app. unfold chunks_of at 2. cbn [flat_map]. rewrite app_nil_r. rewrite (Nat.eqb_sym t u).
  destruct (Nat.eqb_spec u t) as [H|H].
  - subst u. rewrite E, app_nil_r. reflexivity.
  - rewrite app_nil_r. reflexivity.
Qed.

Lemma step_keeps b c u : chunks_of u (sent (step b c)) ++ buffers (step b c) u = (chunks_of u (sent b) ++ buffers b u) ++ wrote u c.
Proof.
  assert (P : forall t s, chunks_of u (sent (set_buffer b t (buffers b t ++ s))) ++ buffers (set_buffer b t (buffers b t ++ s)) u =
    (chunks_of u (sent b) ++ buffers b u) ++ (if Nat.eqb t u then s else [])).
  { intros t s. cbn [set_buffer sent buffers]. rewrite (Nat.eqb_sym t u). destruct (Nat.eqb_spec u t) as [H|H].
    - subst u. rewrite app_assoc. reflexivity.
    - rewrite app_nil_r. reflexivity. }
  destruct c as [t [c|]|t s|t|o]; cbn [step wrote]; rewrite ?app_nil_r.
  - destruct (_ || _); [rewrite locked_sync_keeps|]; apply P.
  - reflexivity.
  - destruct (ends_line _); [rewrite locked_sync_keeps|]; apply P.
  - apply locked_sync_keeps.
  - reflexivity.
Qed.

Lemma run_snoc h c : run (h ++ [c]) = step (run h) c.
Proof. unfold run. rewrite fold_left_app. reflexivity. Qed.

Lemma run_keeps h u : chunks_of u (sent (run h)) ++ buffers (run h) u = written u h.
Proof.
  induction h as [|c h IH] using rev_ind; [reflexivity|]. rewrite run_snoc, step_keeps, IH. unfold written.
  rewrite flat_map_app. cbn [flat_map]. rewrite app_nil_r. reflexivity.
Qed.

(** Chunks are not empty, and end a line unless a thread asked for them. *)
Lemma sync_sent b t : sent (locked_sync b t) = sent b \/
  exists o, out b = Some o /\ buffers b t <> [] /\ sent (locked_sync b t) = sent b ++ [(o, t, buffers b t)].
Proof.
  unfold locked_sync. destruct (buffers b t) as [|c s] eqn:E; [left; reflexivity|]. destruct (out b) as [o|]; [right|left; reflexivity].
  exists o. split; [reflexivity|]. split; [discriminate|reflexivity].
Qed.

Lemma ends_line_snoc s c : ends_line (s ++ [c]) = Ascii.eqb c newline || Ascii.eqb c return_.
Proof. unfold ends_line. rewrite rev_app_distr. reflexivity. Qed.

Lemma run_out h o : out (run h) = Some o -> In (Init o) h.
Proof.
  revert o. induction h as [|c h IH] using rev_ind; intros o E; [discriminate|]. rewrite run_snoc in E.
  assert (Y : forall b t, out (locked_sync b t) = out b).
  { intros b t. unfold locked_sync. destruct (buffers b t); [reflexivity|]. destruct (out b) eqn:Eo; [cbn [out]; congruence|congruence]. }
  apply in_app_iff. destruct c as [t [c|]|t s|t|o']; cbn [step] in E.
  - left. apply IH. rewrite <- E. destruct (_ || _); rewrite ?Y; reflexivity.
  - left. apply IH. exact E.
  - left. apply IH. rewrite <- E. destruct (ends_line _); rewrite ?Y; reflexivity.
  - left. apply IH. rewrite <- E. symmetry. apply Y.
  - right. left. cbn [out] in E. congruence.
Qed.

Lemma chunk_ends h : forall o t s, In (o, t, s) (sent (run h)) ->
  s <> [] /\ (ends_line s = true \/ In (Sync t) h) /\ In (Init o) h.
Proof.
  induction h as [|c h IH] using rev_ind; intros o t s J; [destruct J|].
  assert (Old : In (o, t, s) (sent (run h)) -> s <> [] /\ (ends_line s = true \/ In (Sync t) (h ++ [c])) /\ In (Init o) (h ++ [c])).
  { intros K. destruct (IH o t s K) as (H1 & H2 & H3). split; [exact H1|]. split; [|apply in_app_iff; auto].
    destruct H2 as [H2|H2]; [auto|]. right. apply in_app_iff. auto. }
  assert (New : forall b u, sent b = sent (run h) -> out b = out (run h) -> In (o, t, s) (sent (locked_sync b u)) ->
    (t = u -> ends_line (buffers b u) = true \/ In (Sync t) (h ++ [c])) ->
    s <> [] /\ (ends_line s = true \/ In (Sync t) (h ++ [c])) /\ In (Init o) (h ++ [c])).
  { intros b u Es Eo K Hl. destruct (sync_sent b u) as [E|(o' & E1 & E2 & E)]; rewrite E in K.
    - apply Old. rewrite <- Es. exact K.
    - apply in_app_iff in K as [K|[K|[]]]; [apply Old; rewrite <- Es; exact K|]. injection K as <- <- <-.
      split; [exact E2|]. split; [apply Hl; reflexivity|]. apply in_app_iff. left. apply run_out. congruence. }
  rewrite run_snoc in J. destruct c as [u [c|]|u w|u|o']; cbn [step] in J.
  - destruct (_ || _) eqn:En; [|apply Old; exact J]. eapply New; [| |exact J|]; try reflexivity. intros _. left.
    cbn [set_buffer buffers]. rewrite Nat.eqb_refl, ends_line_snoc. exact En.
  - apply Old. exact J.
  - destruct (ends_line _) eqn:En; [|apply Old; exact J]. eapply New; [| |exact J|]; try reflexivity. intros _. left. exact En.
  - eapply New; [| |exact J|]; try reflexivity. intros ->. right. apply in_app_iff. right. left. reflexivity.
  - apply Old. exact J.
Qed.
