(** C39: stopwatches. *)
From Coq Require Import ZArith List Lia Bool Ascii String.
From Verif Require Import Lib.Base Lib.Str Watch.Model Watch.Spec Watch.Proofs.
Import ListNotations.
Local Open Scope Z_scope.
Local Open Scope list_scope.

(** Whenever nothing is running, the elapsed time is the time during which
    something was (modulo 2^64, for any clock, even one set back). *)
Theorem watch_total h :
  nested h -> depth h = 0 -> elapsed_microseconds (after h) = busy 0 h mod 2 ^ 64.
Proof.
  intros N D. destruct (after_spec h N) as (_ & _ & E). unfold elapsed_microseconds. rewrite E, D. cbn [Z.ltb Z.compare].
  unfold u64. change 18446744073709551616 with (2 ^ 64). f_equal. lia.
Qed.
Print Assumptions watch_total.

(** While something is running the elapsed time stays what it was when the
    outermost interval began. *)
Theorem watch_running_constant h h' :
  nested (h ++ h') -> depth h = 0 -> (forall h1 h2, h' = h1 ++ h2 -> h1 <> [] -> 0 < depth (h ++ h1)) ->
  elapsed_microseconds (after (h ++ h')) = busy 0 h mod 2 ^ 64.
Proof.
  intros N D P. rewrite (running_keeps h h' N P). apply watch_total; [eapply nested_app; exact N|exact D].
Qed.
Print Assumptions watch_running_constant.

(** is_running tells whether a start is pending; num_stops how often the last
    pending start was stopped. *)
Theorem watch_running h : nested h -> (is_running (after h) = true <-> 0 < depth h).
Proof.
  intros N. destruct (after_spec h N) as (E & _). unfold is_running. rewrite E.
  pose proof (proj1 (N h [] (eq_sym (app_nil_r h)))). destruct (Z.eqb_spec (depth h) 0); cbn [negb]; split; intros; try discriminate; lia.
Qed.
Print Assumptions watch_running.

Theorem watch_stops h : nested h -> num_stops (after h) = finishes 0 h mod 2 ^ 32.
Proof. intros N. destruct (after_spec h N) as (_ & E & _). exact E. Qed.
Print Assumptions watch_stops.

(** One outermost interval adds its length, whatever is nested in it. *)
Theorem watch_interval h inner t1 t2 :
  nested (h ++ [Start t1] ++ inner ++ [Stop t2]) -> depth h = 0 -> depth inner = 0 ->
  (forall i1 i2, inner = i1 ++ i2 -> 0 <= depth i1) ->
  let e := elapsed_microseconds in
  e (after (h ++ [Start t1] ++ inner ++ [Stop t2])) = (e (after h) + (t2 - t1)) mod 2 ^ 64 /\
  num_stops (after (h ++ [Start t1] ++ inner ++ [Stop t2])) = (num_stops (after h) + 1) mod 2 ^ 32.
Proof.
  intros N D Di Pi. cbv zeta.
  assert (Nh : nested h) by (eapply nested_app; exact N).
  assert (Da : forall l m, depth (l ++ m) = depth l + depth m) by (intros; unfold depth; rewrite map_app, zsum_app; reflexivity).
  assert (St : forall m, (exists m', inner = m ++ m') -> startdepth (after ((h ++ [Start t1]) ++ m)) = 1 + depth m /\
    last_start (after ((h ++ [Start t1]) ++ m)) = t1 /\ total_elapsed (after ((h ++ [Start t1]) ++ m)) = total_elapsed (after h) /\
    numstops (after ((h ++ [Start t1]) ++ m)) = numstops (after h)).
  { induction m as [|e m IH] using rev_ind; intros (m' & Em).
    - rewrite app_nil_r, after_snoc. cbn [apply_event]. unfold start. destruct (after_spec h Nh) as (E & _). rewrite E, D. cbn.
      repeat split.
    - assert (Em2 : inner = m ++ [e] ++ m') by (rewrite Em; symmetry; apply app_assoc).
      destruct (IH (ex_intro _ ([e] ++ m') Em2)) as (A1 & A2 & A3 & A4).
      assert (P1 : 0 <= depth m) by (apply (Pi m ([e] ++ m')); exact Em2).
      assert (P2 : 0 <= depth (m ++ [e])) by (apply (Pi (m ++ [e]) m'); exact Em).
      assert (P3 : depth (h ++ [Start t1] ++ m ++ [e]) < 4294967296).
      { apply (N (h ++ [Start t1] ++ m ++ [e]) (m' ++ [Stop t2])). rewrite Em2, <- !app_assoc. reflexivity. }
      rewrite app_assoc, after_snoc. rewrite !Da, D in P3. rewrite Da in P2. rewrite Da.
      change (depth [Start t1]) with 1 in *. replace (depth [e]) with (delta e) in * by (unfold depth; cbn; lia).
      destruct e as [t|t]; cbn [apply_event delta] in *.
      + unfold start. cbn [startdepth last_start total_elapsed numstops]. rewrite A1, A2, A3, A4.
        destruct (Z.eqb_spec (1 + depth m) 0); [lia|]. split; [unfold u32; rewrite Z.mod_small by lia; lia|auto].
      + unfold stop. rewrite A1. replace (u32 (1 + depth m - 1)) with (depth m) by (symmetry; unfold u32; rewrite Z.mod_small by lia; lia).
        destruct (Z.eqb_spec (depth m) 0); [lia|]. cbn [startdepth last_start total_elapsed numstops].
        rewrite A2, A3, A4. split; [lia|auto]. }
  destruct (St inner (ex_intro _ [] (eq_sym (app_nil_r inner)))) as (A1 & A2 & A3 & A4).
  replace (h ++ [Start t1] ++ inner ++ [Stop t2]) with (((h ++ [Start t1]) ++ inner) ++ [Stop t2]) by (rewrite <- !app_assoc; reflexivity).
  rewrite after_snoc. cbn [apply_event]. unfold stop. rewrite A1, Di. cbn [Z.add Z.sub Z.opp Pos.add Z.pos_sub].
  change (u32 0 =? 0) with true. cbv iota. unfold elapsed_microseconds, num_stops. cbn [total_elapsed numstops].
  rewrite A2, A3, A4, u64_add. split; reflexivity.
Qed.
Print Assumptions watch_interval.

Definition ex_watch : list event := [Start 5; Start 7; Stop 9; Stop 15; Start 20; Stop 21].

Example watch_ex :
  nested ex_watch /\ depth ex_watch = 0 /\ busy 0 ex_watch = 11 /\ elapsed_microseconds (after ex_watch) = 11 /\
  num_stops (after ex_watch) = 2 /\ elapsed_microseconds (after (ex_watch ++ [Start 30; Start 31; Stop 40])) = 11.
Proof.
  split; [|repeat split].
  intros h1 h2 E. unfold ex_watch in E.
  do 7 (destruct h1 as [|? h1]; [vm_compute; split; congruence|try discriminate E; injection E as <- E]).
Qed.

(** A set of watches keeps for every name the watch of the calls made with that
    name, and creates no other. *)
Theorem watch_set_by_name h name :
  (In name (map fst h) -> exists w, In (name, w) (set_after h) /\ w = after (events_of name h)) /\
  (forall w, In (name, w) (set_after h) -> In name (map fst h) /\ w = after (events_of name h)).
Proof.
  assert (ND : NoDup (map fst (set_after h))).
  { unfold set_after. assert (G : forall s : watch_set, NoDup (map fst s) -> NoDup (map fst (fold_left named_call h s))).
    { induction h as [|(n, o) h IH]; intros s Ns; [exact Ns|]. cbn [fold_left]. apply IH. unfold named_call. cbn [fst snd].
      assert (A : forall s : watch_set, NoDup (map fst s) -> NoDup (map fst (fst (get s n))) /\ forall x, In x (map fst (fst (get s n))) -> In x (map fst s) \/ x = n).
      { clear. induction s as [|(m, w) s IH]; intros Ns; cbn [get].
        - split; [constructor; [intros []|constructor]|]. intros x [<-|[]]. auto.
        - destruct (str_eqb m n) eqn:E; [split; [exact Ns|auto]|]. inversion Ns as [|? ? N1 N2]; subst. destruct (IH N2) as (I1 & I2).
          destruct (get s n) as (s', w'). cbn [fst map] in *. split.
          + constructor; [|exact I1]. intros J. apply I2 in J as [J|J]; [contradiction|]. subst n. rewrite str_eqb_refl in E. discriminate.
          + intros x [<-|J]; [left; left; reflexivity|]. apply I2 in J as [J|J]; [left; right; exact J|right; exact J]. }
      destruct (A s Ns) as (A1 & _). destruct (get s n) as (s', w). cbn [fst] in A1. destruct o as [e|]; [|exact A1].
      replace (map fst (set_watch s' n (apply_event w e))) with (map fst s'); [exact A1|]. clear.
      induction s' as [|(m, v) s' IH]; [reflexivity|]. cbn [set_watch]. destruct (str_eqb m n); cbn [map fst]; [reflexivity|]. f_equal. exact IH. }
    apply G. constructor. }
  assert (Lk : forall (s : watch_set) n w, NoDup (map fst s) -> (In (n, w) s <-> look s n = Some w)).
  { clear. induction s as [|(m, v) s IH]; intros n w Ns; cbn [look In]; [split; [intros []|discriminate]|].
    inversion Ns as [|? ? N1 N2]; subst. destruct (str_eqb m n) eqn:E.
    - apply str_eqb_spec in E. subst m. split.
      + intros [J|J]; [congruence|]. exfalso. apply N1. apply in_map_iff. exists (n, w). auto.
      + intros [= ->]. auto.
    - rewrite <- IH by exact N2. split; [intros [J|J]; [|exact J]|auto]. injection J as -> ->. rewrite str_eqb_refl in E. discriminate. }
  pose proof (set_after_spec h name) as E. destruct (existsb _ h) eqn:Ex.
  - split.
    + intros _. eexists. split; [|reflexivity]. apply Lk; [exact ND|exact E].
    + intros w J. apply Lk in J; [|exact ND]. rewrite E in J. injection J as <-. split; [|reflexivity].
      apply existsb_exists in Ex as (c & Jc & Ec). apply str_eqb_spec in Ec. subst name. apply in_map. exact Jc.
  - split.
    + intros J. apply in_map_iff in J as (c & <- & Jc). exfalso. assert (existsb (fun x => str_eqb (fst x) (fst c)) h = true); [|congruence].
      apply existsb_exists. exists c. split; [exact Jc|apply str_eqb_refl].
    + intros w J. apply Lk in J; [|exact ND]. congruence.
Qed.
Print Assumptions watch_set_by_name.

Example watch_set_ex :
  set_after [(lit "a", Some (Start 1)); (lit "b", None); (lit "a", Some (Stop 4))] = [(lit "a", Watch 3 1 0 1); (lit "b", new_watch)].
Proof. reflexivity. Qed.

(** "A start and a stop add the time between them": not after a stop too many,
    and the watch is then running while it is not started. *)
Theorem stray_stop_refuted :
  ~ (forall h t1 t2, depth h <= 0 -> elapsed_microseconds (after (h ++ [Start t1; Stop t2])) = (elapsed_microseconds (after h) + (t2 - t1)) mod 2 ^ 64) /\
  is_running (after [Stop 1]) = true /\ is_running (after [Stop 1; Start 2]) = false /\
  forall ts, elapsed_microseconds (after (Stop 0 :: flat_map (fun '(a, b) => [Start a; Stop b]) ts)) = 0.
Proof.
  split; [|split; [reflexivity|split; [reflexivity|]]].
  - intros H. specialize (H [Stop 0] 5 9 ltac:(vm_compute; congruence)). vm_compute in H. discriminate H.
  - intros ts. assert (G : forall l, startdepth (fold_left apply_event (flat_map (fun '(a, b) => [Start a; Stop b]) ts) (Watch 0 l 4294967295 0)) = 4294967295 /\
      total_elapsed (fold_left apply_event (flat_map (fun '(a, b) => [Start a; Stop b]) ts) (Watch 0 l 4294967295 0)) = 0).
    { induction ts as [|(a, b) ts IH]; intros l; [split; reflexivity|]. cbn [flat_map app fold_left apply_event].
      change (start a (Watch 0 l 4294967295 0)) with (Watch 0 l 0 0). change (stop b (Watch 0 l 0 0)) with (Watch 0 l 4294967295 0). apply IH. }
    apply (G 0).
Qed.
Print Assumptions stray_stop_refuted.
