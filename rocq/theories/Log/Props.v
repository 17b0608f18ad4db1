(** C36, C37: the system log. *)
From Verif Require Import Lib.Base Lib.Lists Lib.Str Log.Model Log.Spec Log.Proofs.
From Coq Require Import List Arith Bool ZArith Ascii String Lia.
Import ListNotations.
Open Scope list_scope.

(** ** C36 *)

(** A legal pattern matches exactly the names it stands for. *)
Theorem rule_pattern_matches p ns : legal p -> (wildcard_match p ns = true <-> stands_for p ns).
Proof. apply match_iff. Qed.
Print Assumptions rule_pattern_matches.

Example pattern_ex :
  legal (lit "a.*") /\ stands_for (lit "a.*") (lit "a") /\ stands_for (lit "a.*") (lit "a.b") /\
  wildcard_match (lit "a.*") (lit "ab") = false /\ wildcard_match (lit "*.b") (lit "x.b") = true.
Proof.
  split; [|split; [|split; [|split; reflexivity]]].
  - right. exists (lit "a."). split; [|right; reflexivity]. intros [E|[E|[]]]; discriminate E.
  - do 3 right. reflexivity.
  - right. right. left. exists (lit "a."), (lit "b"). auto.
Qed.

(** A rule is accepted exactly if its pattern is legal. *)
Theorem rule_accepted_iff rules lvl p : (exists r, add_rule rules lvl p = Ok r) <-> legal p.
Proof.
  destruct (add_rule_iff rules lvl p) as (A & B). split.
  - intros (r & E). destruct (legal_dec p) as [L|L]; [exact L|]. rewrite (B L) in E. discriminate.
  - intros L. eexists. apply A. exact L.
Qed.
Print Assumptions rule_accepted_iff.

(** Otherwise ArgumentErr is thrown, and no decision changes. *)
Theorem rule_rejected_unchanged h lvl p :
  ~ legal p ->
  add_rule (rules_after h) lvl p = Throw ArgumentErr /\
  forall l ns, passes (rules_after (h ++ [AddRule lvl p])) l ns = passes (rules_after h) l ns.
Proof.
  intros L. pose proof (proj2 (add_rule_iff (rules_after h) lvl p) L) as E. split; [exact E|]. intros l ns.
  rewrite rules_snoc. cbn [rule_step]. rewrite E. reflexivity.
Qed.
Print Assumptions rule_rejected_unchanged.

Example rejected_ex : ~ legal (lit "a.*.b") /\ ~ legal (lit "**").
Proof.
  split; intros L; pose proof (proj1 (add_rule_iff [] 0%Z _) L) as E; vm_compute in E; discriminate.
Qed.

(** The latest matching rule decides, whatever came before. *)
Theorem latest_rule_decides h ns rl lvl :
  decides h ns rl -> passes (rules_after h) lvl ns = (rl =? 100)%Z || (lvl <=? rl)%Z.
Proof. apply decides_passes. Qed.
Print Assumptions latest_rule_decides.

Definition ex_history : list rule_call :=
  [AddRule 40 (lit "*"); ClearRules; AddRule 30 (lit "Stereo.*"); AddRule 0 (lit "*.cache"); AddRule 5 (lit "x*y")].

Example decides_ex :
  decides ex_history (lit "stereo.SGM") 30%Z /\
  passes (rules_after ex_history) 30 (lit "stereo.SGM") = true /\
  passes (rules_after ex_history) 31 (lit "stereo") = false /\
  passes (rules_after ex_history) 5 (lit "stereo.cache") = false.
Proof.
  split; [|repeat split].
  exists [AddRule 40 (lit "*"); ClearRules], (lit "Stereo.*"), [AddRule 0 (lit "*.cache"); AddRule 5 (lit "x*y")].
  assert (X : forall p, legal p -> wildcard_match (to_lower p) (to_lower (lit "stereo.SGM")) = false ->
    ~ stands_for (to_lower p) (to_lower (lit "stereo.SGM"))).
  { intros p L W M. apply match_iff in M; [congruence|apply lower_legal; exact L]. }
  assert (L : legal (lit "Stereo.*")) by (apply (rule_accepted_iff [] 0%Z); eexists; reflexivity).
  split; [reflexivity|]. split; [exact L|].
  split; [apply match_iff; [apply lower_legal; exact L|reflexivity]|].
  split; [intros [E|[E|[]]]; discriminate E|].
  intros rl' p' [E|[E|[]]] L'; injection E as <- <-; apply X; auto.
Qed.

(** If no rule matches the documented defaults decide: everything up to a
    warning, and up to an info message for the console and for progress bars. *)
Theorem no_rule_defaults h ns lvl :
  (forall rl, ~ decides h ns rl) ->
  (passes (rules_after h) lvl ns = true <->
   (lvl <= 10)%Z \/ (lvl <= 20)%Z /\ (ns = lit "console" \/ exists a, to_lower ns = a ++ lit ".progress")).
Proof.
  intros N. rewrite (no_decider h ns lvl N). unfold default_rule, InfoMessage, WarningMessage.
  assert (E : wildcard_match (lit "*.progress") (to_lower ns) = true <-> exists a, to_lower ns = a ++ lit ".progress").
  { change (wildcard_match (lit "*.progress") (to_lower ns)) with (ends (to_lower ns) (lit ".progress")). apply ends_spec. }
  destruct (Z.leb_spec lvl 20) as [H20|H20]; cbn [andb].
  - destruct (str_eqb ns (lit "console")) eqn:Ec; cbn [orb].
    + apply str_eqb_spec in Ec. split; [|reflexivity]. right. auto.
    + apply str_eqb_false in Ec. destruct (wildcard_match (lit "*.progress") (to_lower ns)).
      * split; [|reflexivity]. intros _. right. split; [exact H20|]. right. apply E. reflexivity.
      * rewrite Z.leb_le. split; [auto|]. intros [H|(_ & [H|H])]; [exact H|contradiction|]. apply E in H. discriminate.
  - rewrite Z.leb_le. split; [auto|]. intros [H|(H & _)]; [exact H|lia].
Qed.
Print Assumptions no_rule_defaults.

Example defaults_ex :
  passes (rules_after ex_history) 20 (lit "a.Progress") = true /\ passes (rules_after ex_history) 21 (lit "console") = false /\
  passes (rules_after ex_history) 20 (lit "other") = false /\ passes (rules_after ex_history) 10 (lit "other") = true.
Proof. repeat split. Qed.

(** After a clear nothing of the past matters. *)
Theorem clear_forgets h h' lvl ns :
  passes (rules_after (h ++ ClearRules :: h')) lvl ns = passes (rules_after h') lvl ns.
Proof. unfold rules_after. rewrite fold_left_app. reflexivity. Qed.
Print Assumptions clear_forgets.

(** The stream of a message feeds exactly the logs whose rules let it pass, each
    once, in order. *)
Theorem log_fan_out logs lvl ns :
  (forall i, In i (enabled_logs 0 logs lvl ns) <-> exists r, nth_error logs i = Some r /\ passes r lvl ns = true) /\
  NoDup (enabled_logs 0 logs lvl ns) /\ Sorted.StronglySorted lt (enabled_logs 0 logs lvl ns).
Proof.
  pose proof (enabled_sorted logs lvl ns 0) as B.
  split; [|split; [|exact B]].
  - intros i. rewrite enabled_in, Nat.sub_0_r. split; [intros (_ & H); exact H|intros H; split; [lia|exact H]].
  - revert B. generalize (enabled_logs 0 logs lvl ns). intros l H. induction H as [|x l H IH F]; constructor; [|exact IH].
    intros J. rewrite Forall_forall in F. specialize (F x J). lia.
Qed.
Print Assumptions log_fan_out.

Theorem log_enabled_iff logs lvl ns :
  is_enabled logs lvl ns = true <-> exists i r, nth_error logs i = Some r /\ passes r lvl ns = true.
Proof.
  unfold is_enabled. rewrite existsb_exists. split.
  - intros (r & J & P). apply In_nth_error in J as (i & E). eauto.
  - intros (i & r & E & P). apply nth_error_In in E. eauto.
Qed.
Print Assumptions log_enabled_iff.

Example fan_out_ex :
  enabled_logs 0 [rules_after ex_history; rules_after [AddRule 0 (lit "*")]; rules_after [AddRule 100 (lit "*")]] 25 (lit "stereo.x") = [0; 2].
Proof. reflexivity. Qed.

(** "Namespaces ignore case": not for the console default. *)
Theorem default_case_refuted :
  ~ (forall h lvl ns ns', to_lower ns = to_lower ns' -> passes (rules_after h) lvl ns = passes (rules_after h) lvl ns').
Proof. intros H. specialize (H [] 20%Z (lit "console") (lit "Console") eq_refl). discriminate H. Qed.
Print Assumptions default_case_refuted.

(** ** C37 *)

(** Whatever the schedule, what a thread wrote is what was sent for it followed
    by what is still buffered for it. *)
Theorem log_text_in_order h t : chunks_of t (sent (run h)) ++ buffers (run h) t = written t h.
Proof. apply run_keeps. Qed.
Print Assumptions log_text_in_order.

(** Every chunk is not empty, goes to a stream that was set, and ends a line
    unless its thread asked for a flush. *)
Theorem log_chunks h o t s :
  In (o, t, s) (sent (run h)) ->
  s <> [] /\ In (Init o) h /\
  ((exists r c, s = r ++ [c] /\ (c = newline \/ c = return_)) \/ In (Sync t) h).
Proof.
  intros J. destruct (chunk_ends h o t s J) as (A & B & C). split; [exact A|]. split; [exact C|].
  destruct B as [B|B]; [left|right; exact B]. destruct (exists_last A) as (r & c & ->). exists r, c. split; [reflexivity|].
  rewrite ends_line_snoc in B. apply orb_true_iff in B as [B|B]; apply Ascii.eqb_eq in B; auto.
Qed.
Print Assumptions log_chunks.

Lemma step_out b c : out b <> None -> out (step b c) <> None.
Proof.
  assert (Y : forall b t, out (locked_sync b t) = out b).
  { intros b0 t. unfold locked_sync. destruct (buffers b0 t); [reflexivity|]. destruct (out b0) eqn:Eo; [cbn [out]; congruence|congruence]. }
  intros H. destruct c as [t [c|]|t s|t|o']; cbn [step].
  - destruct (_ || _); rewrite ?Y; exact H.
  - exact H.
  - destruct (ends_line _); rewrite ?Y; exact H.
  - rewrite Y. exact H.
  - discriminate.
Qed.

Lemma init_out h o : In (Init o) h -> out (run h) <> None.
Proof.
  induction h as [|c h IH] using rev_ind; intros J; [destruct J|]. rewrite run_snoc.
  apply in_app_iff in J as [J|[->|[]]]; [apply step_out, IH, J|discriminate].
Qed.

Lemma sync_empties b t : out b <> None -> buffers (locked_sync b t) t = [].
Proof.
  intros H. unfold locked_sync. destruct (buffers b t) eqn:E; [exact E|]. destruct (out b); [|congruence]. cbn [buffers].
  rewrite Nat.eqb_refl. reflexivity.
Qed.

Definition completes_line (t : nat) (c : call) : Prop :=
  (exists s e, c = Xsputn t (s ++ [e]) /\ (e = newline \/ e = return_)) \/
  (exists e, c = Overflow_ t (Some e) /\ (e = newline \/ e = return_)) \/ c = Sync t.

(** Once a stream is set, a write that completes a line (or a flush) leaves
    nothing of that thread behind: all it ever wrote has been sent. *)
Theorem log_line_flushed h o t c :
  In (Init o) h -> completes_line t c ->
  buffers (run (h ++ [c])) t = [] /\ chunks_of t (sent (run (h ++ [c]))) = written t (h ++ [c]).
Proof.
  intros J C. assert (B : buffers (run (h ++ [c])) t = []).
  { rewrite run_snoc. pose proof (init_out h o J) as O.
    assert (Nl : forall e, e = newline \/ e = return_ -> Ascii.eqb e newline || Ascii.eqb e return_ = true).
    { intros e [->| ->]; reflexivity. }
    destruct C as [(s & e & -> & E)|[(e & -> & E)| ->]]; cbn [step].
    - cbn [set_buffer buffers]. rewrite Nat.eqb_refl, app_assoc, ends_line_snoc, (Nl e E). apply sync_empties. exact O.
    - rewrite (Nl e E). apply sync_empties. exact O.
    - apply sync_empties. exact O. }
  split; [exact B|]. rewrite <- log_text_in_order, B, app_nil_r. reflexivity.
Qed.
Print Assumptions log_line_flushed.

(** What one call sends: at most one chunk, at the end, to the stream that is
    set, of the calling thread; nothing sent is taken back. *)
Theorem log_write_sent h c :
  sent (run (h ++ [c])) = sent (run h) \/
  exists o t s, sent (run (h ++ [c])) = sent (run h) ++ [(o, t, s)] /\ out (run h) = Some o /\
    (c = Sync t \/ (exists w, c = Xsputn t w) \/ exists e, c = Overflow_ t e).
Proof.
  rewrite run_snoc.
  assert (A : forall b t, sent (locked_sync b t) = sent b \/ exists o s, sent (locked_sync b t) = sent b ++ [(o, t, s)] /\ out b = Some o).
  { intros b t. destruct (sync_sent b t) as [E|(o & E1 & _ & E2)]; [left; exact E|right; eauto]. }
  destruct c as [t [e|]|t w|t|o]; cbn [step]; try (left; reflexivity).
  - destruct (_ || _); [|left; reflexivity]. destruct (A (set_buffer (run h) t (buffers (run h) t ++ [e])) t) as [E|(o & s & E & O)]; [left; exact E|right].
    exists o, t, s. split; [exact E|]. split; [exact O|]. right. right. eauto.
  - destruct (ends_line _); [|left; reflexivity]. destruct (A (set_buffer (run h) t (buffers (run h) t ++ w)) t) as [E|(o & s & E & O)]; [left; exact E|right].
    exists o, t, s. split; [exact E|]. split; [exact O|]. right. left. eauto.
  - destruct (A (run h) t) as [E|(o & s & E & O)]; [left; exact E|right]. exists o, t, s. split; [exact E|]. split; [exact O|]. left. reflexivity.
Qed.
Print Assumptions log_write_sent.

(** A call by one thread leaves the buffered text of all others alone. *)
Theorem log_other_threads_untouched h c u :
  (forall e, c <> Overflow_ u e) -> (forall w, c <> Xsputn u w) -> c <> Sync u ->
  buffers (run (h ++ [c])) u = buffers (run h) u.
Proof.
  intros N1 N2 N3. rewrite run_snoc.
  assert (A : forall b t, t <> u -> buffers (locked_sync b t) u = buffers b u).
  { intros b t H. unfold locked_sync. destruct (buffers b t); [reflexivity|]. destruct (out b); [|reflexivity]. cbn [buffers].
    destruct (Nat.eqb_spec u t); [congruence|reflexivity]. }
  assert (B : forall t s, t <> u -> buffers (set_buffer (run h) t s) u = buffers (run h) u).
  { intros t s H. cbn [set_buffer buffers]. destruct (Nat.eqb_spec u t); [congruence|reflexivity]. }
  destruct c as [t [e|]|t w|t|o]; cbn [step]; try reflexivity.
  - assert (t <> u) by (intros ->; eapply N1; reflexivity). destruct (_ || _); rewrite ?A, ?B by assumption; reflexivity.
  - assert (t <> u) by (intros ->; eapply N2; reflexivity). destruct (ends_line _); rewrite ?A, ?B by assumption; reflexivity.
  - apply A. intros ->. apply N3. reflexivity.
Qed.
Print Assumptions log_other_threads_untouched.

Definition ex_calls : list call :=
  [Xsputn 1 (lit "early"); Init 7; Xsputn 1 (lit " on"); Xsputn 2 (lit "two" ++ [newline]); Overflow_ 1 (Some newline); Xsputn 2 (lit "tail"); Sync 3].

Example log_ex :
  sent (run ex_calls) = [(7, 2, lit "two" ++ [newline]); (7, 1, lit "early on" ++ [newline])] /\
  buffers (run ex_calls) 2 = lit "tail" /\ In (Init 7) (firstn 4 ex_calls) /\ completes_line 1 (Overflow_ 1 (Some newline)).
Proof.
  repeat split.
  - right. left. reflexivity.
  - right. left. exists newline. auto.
Qed.

(** "Nothing is lost when the buffer is destroyed": only the text of the thread
    that destroys it is sent. *)
Theorem destroy_flushes_all_refuted :
  ~ (forall h t u o, In (Init o) h -> chunks_of u (sent (destroy (run h) t)) = written u h).
Proof. intros H. specialize (H ex_calls 1 2 7 (or_intror (or_introl eq_refl))). discriminate H. Qed.
Print Assumptions destroy_flushes_all_refuted.

(** "A log's text goes to its own stream": destroying a log sends what is pending
    to std::cout. *)
Theorem destroy_log_stream_refuted :
  ~ (forall h t cout, (forall o, In (Init o) h -> o <> cout) ->
     forall o u s, In (o, u, s) (sent (destroy_log (run h) cout t)) -> o <> cout).
Proof.
  intros H. refine (H ex_calls 2 0 _ 0 2 (lit "tail") _ eq_refl).
  - intros o J. repeat (destruct J as [J|J]; [try discriminate J; injection J as <-; discriminate|]). destruct J.
  - vm_compute. auto.
Qed.
Print Assumptions destroy_log_stream_refuted.
