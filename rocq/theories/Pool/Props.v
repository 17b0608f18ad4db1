(* C16, C17, C18: the work queues under every schedule. *)
From Coq Require Import ZArith List Lia Bool Permutation.
From Verif Require Import Lib.Base Pool.Model Pool.Proofs Pool.Queues.
Import ListNotations.
Local Open Scope Z_scope.

(* the tasks and worker numbers a pool is busy with *)
Definition busy {T S Q} (p : pool T S Q) : list nat := map fst (wk p).
Definition in_hand {T S Q} (p : pool T S Q) : list T :=
  flat_map (fun w => match snd w with WRun t | WGot t | WDead t => [t] | _ => [] end) (wk p).
Definition unsignalled {T S Q} (p : pool T S Q) : list T :=
  flat_map (fun w => match snd w with WEnd t => [t] | _ => [] end) (wk p).

(* ---------------------------------------------------------------- C16 *)
(* At every moment: tasks leave the queue in submission order, each exactly
   once; what left the queue was run once or is in a worker's hands; what ran
   was signalled once or is about to be; every worker number is either free or
   busy, never both; the active count is the number of workers. *)
Theorem fifo_accounting {T} n c (p : pool T T (list T)) :
  reach fifo_push fifo_pop [] n c p ->
  submitted p = taken p ++ q p /\
  Permutation (taken p) (ran p ++ in_hand p) /\
  Permutation (ran p) (signalled p ++ unsignalled p) /\
  Permutation (ids p ++ busy p) (seq 0 n) /\
  act p = Z.of_nat (length (wk p)) /\ (length (wk p) <= n)%nat.
Proof.
  intros R. pose proof (inv_reach fifo_push fifo_pop n [] c p eq_refl R) as V.
  split; [eapply fifo_log; eauto|]. split; [apply (v_taken _ _ _ V)|]. split; [apply (v_ran _ _ _ V)|].
  split; [apply (v_ids _ _ _ V)|]. split; [apply (v_act _ _ _ V)|].
  pose proof (Permutation_length (v_ids _ _ _ V)) as L. rewrite app_length, map_length, seq_length in L. lia.
Qed.

(* Without further calls the pool comes to rest after finitely many steps, and
   at rest join_all returns and every submitted task has run and been signalled
   exactly once. *)
Theorem fifo_completes {T} n c (p : pool T T (list T)) :
  reach fifo_push fifo_pop [] n c p -> (1 <= n)%nat -> die p = false ->
  exists bound, forall k p', irun fifo_pop k p p' ->
    (k <= bound)%nat /\
    (stuck fifo_pop p' -> joined p' /\ q p' = [] /\ taken p' = submitted p /\
       Permutation (ran p') (submitted p) /\ Permutation (signalled p') (submitted p)).
Proof.
  intros R HN HD. exists (measure (@length T) p). intros k p' RUN.
  split; [eapply irun_bound; eauto; apply fifo_size|]. intros ST.
  pose proof (inv_reach fifo_push fifo_pop n [] c p eq_refl R) as V.
  assert (R' : reach fifo_push fifo_pop [] n c p').
  { clear -R RUN. induction RUN; auto. apply IHRUN. eapply r_int; eauto. }
  pose proof (inv_reach fifo_push fifo_pop n [] c p' eq_refl R') as V'.
  pose proof (stuck_asleep fifo_pop n p' V' ST) as AS.
  destruct (irun_die fifo_pop k p p' RUN) as [D1 D2]. rewrite HD in D1.
  pose proof (nodead_empty fifo_pop n p' V' AS D1) as E.
  destruct (asleep_dead fifo_pop n p' V' AS) as (A1 & A2 & A3 & A4).
  rewrite E in *. simpl in A1, A4. specialize (A4 HN ltac:(lia)).
  assert (EQ : q p' = []) by (destruct (q p'); [auto|discriminate]).
  pose proof (fifo_log n c p' R') as LG. rewrite EQ, app_nil_r in LG. rewrite D2 in LG.
  pose proof (v_taken _ _ _ V') as PT. pose proof (v_ran _ _ _ V') as PR. rewrite E in PT, PR. simpl in PT, PR.
  rewrite app_nil_r in PT, PR. split; [split; auto|]. split; auto. split; auto.
  assert (P1 : Permutation (ran p') (submitted p)) by (rewrite LG; symmetry; auto).
  split; auto. rewrite <- PR; auto.
Qed.

(* join_all is only stopped by tasks still to be run: whenever it returns with
   no client inside add_task and no kill, everything submitted has run. *)
Theorem join_means_done {T} n c (p : pool T T (list T)) :
  reach fifo_push fifo_pop [] n c p -> (1 <= n)%nat -> joined p -> (forall x, In x (cl p) -> x = CIdle) ->
  Permutation (signalled p) (submitted p).
Proof.
  intros R HN (JA & JQ) HC. pose proof (inv_reach fifo_push fifo_pop n [] c p eq_refl R) as V.
  assert (E : wk p = []). { pose proof (v_act _ _ _ V) as A. rewrite JA in A. destruct (wk p); auto. simpl in A. lia. }
  assert (EQ : q p = []).
  { destruct (v_wake _ _ _ V) as [X|[X|(x & Hx & Nx)]].
    - pose proof (Permutation_length (v_ids _ _ _ V)) as L. rewrite X, E, seq_length in L. simpl in L. lia.
    - destruct (q p); [auto|discriminate].
    - exfalso. apply Nx, HC; auto. }
  pose proof (fifo_log n c p R) as LG. rewrite EQ, app_nil_r in LG.
  pose proof (v_taken _ _ _ V) as PT. pose proof (v_ran _ _ _ V) as PR. rewrite E in PT, PR. simpl in PT, PR.
  rewrite app_nil_r in PT, PR. rewrite LG, PT, PR. reflexivity.
Qed.

(* A pool of zero threads accepts tasks and never runs them. *)
Theorem zero_threads_refuted :
  exists p : pool nat nat (list nat), reach fifo_push fifo_pop [] 0 1 p /\ stuck fifo_pop p /\ joined p /\
    submitted p = [7%nat] /\ ran p = [].
Proof.
  eexists. split; [|split; [|split; [|split]]].
  - eapply r_int; [|eapply (i_done _ _ [] _ _ _ [] []); auto].
    eapply r_int; [|eapply (i_lock _ _ _ _ _ [] [])].
    eapply r_ext; [|eapply (e_add _ _ _ _ _ _ [] []) with (x := 7%nat)]. apply r_init.
  - intros p' H. inversion H; subst; repeat match goal with
      | E : ?A ++ _ = [_] |- _ => destruct A as [|? [|? ?]]; simpl in E; inversion E; clear E; subst
      | E : ?A ++ _ = [] |- _ => destruct A; discriminate E end.
  - split; reflexivity.
  - reflexivity.
  - reflexivity.
Qed.

(* ---------------------------------------------------------------- C17 *)
(* With distinct non-negative indices tasks leave the queue exactly in the
   order 0, 1, 2, ... *)
Theorem ordered_starts_in_order {T} n c (p : pool (Z * T) (Z * T) (list (Z * T) * Z)) :
  reach ord_push ord_pop ([], 0) n c p ->
  NoDup (map fst (submitted p)) -> (forall x, In x (submitted p) -> 0 <= fst x) ->
  map fst (taken p) = zrange 0 (Z.of_nat (length (taken p))) /\
  Permutation (submitted p) (taken p ++ fst (q p)) /\
  Permutation (taken p) (ran p ++ in_hand p) /\
  Permutation (ran p) (signalled p ++ unsignalled p).
Proof.
  intros R ND NN. destruct (ord_log n c p R ND NN) as [P K I PO].
  pose proof (inv_reach ord_push ord_pop n ([], 0) c p eq_refl R) as V.
  split; [|split; [auto|split; [apply (v_taken _ _ _ V)|apply (v_ran _ _ _ V)]]].
  assert (L : Z.of_nat (length (taken p)) = snd (q p)).
  { rewrite <- (map_length fst), K, zrange_length. lia. }
  rewrite L. exact K.
Qed.

(* The pool comes to rest; at rest every task whose index and all smaller ones
   were submitted has run, and no other. *)
Theorem ordered_completes {T} n c (p : pool (Z * T) (Z * T) (list (Z * T) * Z)) :
  reach ord_push ord_pop ([], 0) n c p -> (1 <= n)%nat -> die p = false ->
  NoDup (map fst (submitted p)) -> (forall x, In x (submitted p) -> 0 <= fst x) ->
  exists bound, forall k p', irun ord_pop k p p' ->
    (k <= bound)%nat /\
    (stuck ord_pop p' -> joined p' /\ Permutation (ran p') (signalled p') /\
       NoDup (map fst (ran p')) /\
       forall x, In x (signalled p') <->
         In x (submitted p) /\ forall j, 0 <= j <= fst x -> In j (map fst (submitted p))).
Proof.
  intros R HN HD ND NN. exists (measure (fun q => length (fst q)) p). intros k p' RUN.
  split; [eapply irun_bound; eauto; apply ord_size|]. intros ST.
  assert (R' : reach ord_push ord_pop ([], 0) n c p').
  { clear -R RUN. induction RUN; auto. apply IHRUN. eapply r_int; eauto. }
  pose proof (inv_reach ord_push ord_pop n ([], 0) c p' eq_refl R') as V'.
  pose proof (stuck_asleep ord_pop n p' V' ST) as AS.
  destruct (irun_die ord_pop k p p' RUN) as [D1 D2]. rewrite HD in D1.
  pose proof (nodead_empty ord_pop n p' V' AS D1) as E.
  destruct (asleep_dead ord_pop n p' V' AS) as (A1 & A2 & A3 & A4).
  rewrite E in *. simpl in A1, A4. specialize (A4 HN ltac:(lia)).
  rewrite <- D2 in ND, NN |- *. destruct (ord_log n c p' R' ND NN) as [P K I PO].
  pose proof (v_taken _ _ _ V') as PT. pose proof (v_ran _ _ _ V') as PR. rewrite E in PT, PR. simpl in PT, PR.
  rewrite app_nil_r in PT, PR. split; [split; auto|]. split; auto.
  split. { rewrite <- PT, K. apply zrange_nodup. }
  assert (SG : forall x, In x (signalled p') <-> In x (taken p')).
  { intros x. rewrite PT, PR. reflexivity. }
  destruct (q p') as [m nx0]. simpl in *.
  assert (HM : inc (nx0 + 1) m).
  { destruct m as [|[k0 t0] r]; simpl in *; auto. unfold ord_pop in A4. simpl in A4. destruct (Z.eqb_spec k0 nx0); [discriminate|]. split; [lia|tauto]. }
  assert (KT : forall j, In j (map fst (taken p')) <-> 0 <= j < nx0) by (intros; rewrite K; apply in_zrange).
  intros x. rewrite SG. split.
  - intros Hx. assert (F : 0 <= fst x < nx0) by (apply KT, in_map; auto). split.
    + rewrite P. apply in_or_app; auto.
    + intros j Hj. rewrite P, map_app. apply in_or_app. left. apply KT. lia.
  - intros (Hx & HJ). rewrite P in Hx. apply in_app_or in Hx. destruct Hx as [Hx|Hx]; auto.
    exfalso. pose proof (inc_ge _ _ _ HM Hx) as G.
    assert (HN0 : In nx0 (map fst (submitted p'))) by (apply HJ; lia).
    rewrite P, map_app in HN0. apply in_app_or in HN0. destruct HN0 as [H|H].
    + apply KT in H. lia.
    + apply in_map_iff in H. destruct H as (y & Ey & Hy). pose proof (inc_ge _ _ _ HM Hy). lia.
Qed.

Tactic Notation "fwd" ident(R) uconstr(T) :=
  let R' := fresh "R" in
  eassert (R' : reach _ _ _ _ _ _);
  [eapply r_int; [exact R|eapply T; first [reflexivity|left; reflexivity|right; reflexivity]]|];
  cbn in R'; clear R; rename R' into R.
Tactic Notation "add" ident(R) uconstr(A) uconstr(B) constr(x) :=
  let R' := fresh "R" in
  eassert (R' : reach _ _ _ _ _ _);
  [eapply r_ext; [exact R|eapply (e_add _ _ _ _ _ _ A B _ _ _ _ _ x)]|];
  cbn in R'; clear R; rename R' into R.
Ltac nostep := let p' := fresh in let H := fresh in intros p' H; inversion H; subst; repeat match goal with
      | E : ?A ++ _ = [_] |- _ => destruct A as [|? [|? ?]]; simpl in E; inversion E; clear E; subst
      | E : ?A ++ _ = [] |- _ => destruct A; discriminate E end.

(* An index that was already used blocks the queue for good. *)
Theorem ordered_reuse_refuted :
  exists p : pool (Z * nat) (Z * nat) (list (Z * nat) * Z),
    reach ord_push ord_pop ([], 0) 1 1 p /\ stuck ord_pop p /\ joined p /\
    submitted p = [(0, 10%nat); (0, 20%nat); (1, 30%nat)] /\ ran p = [(0, 10%nat)].
Proof.
  pose proof (r_init (@ord_push nat) ord_pop ([], 0) 1 1) as R. unfold pool0 in R. cbn in R.
  add R [] [] (0, 10%nat).
  fwd R (i_lock _ _ _ _ _ [] []).
  fwd R (i_spawn _ _ _ _ _ _ _ _ _ [] []).
  fwd R (i_done _ _ _ _ _ _ [] []).
  fwd R (i_run _ _ _ _ _ _ _ _ _ [] []).
  fwd R (i_signal _ _ _ _ _ _ _ _ _ [] []).
  fwd R (i_exit _ _ _ _ _ _ _ [] []).
  add R [] [] (0, 20%nat).
  fwd R (i_lock _ _ _ _ _ [] []).
  fwd R (i_done _ _ _ _ _ _ [] []).
  add R [] [] (1, 30%nat).
  fwd R (i_lock _ _ _ _ _ [] []).
  fwd R (i_done _ _ _ _ _ _ [] []).
  eexists. split; [exact R|]. split; [nostep|]. repeat split.
Qed.

(* Submitted out of order, run in order. *)
Example ordered_ex :
  exists p : pool (Z * nat) (Z * nat) (list (Z * nat) * Z),
    reach ord_push ord_pop ([], 0) 2 1 p /\ die p = false /\ NoDup (map fst (submitted p)) /\
    submitted p = [(1, 10%nat); (0, 20%nat)] /\ taken p = [(0, 20%nat); (1, 10%nat)].
Proof.
  pose proof (r_init (@ord_push nat) ord_pop ([], 0) 2 1) as R. unfold pool0 in R. cbn in R.
  add R [] [] (1, 10%nat).
  fwd R (i_lock _ _ _ _ _ [] []).
  fwd R (i_done _ _ _ _ _ _ [] []).
  add R [] [] (0, 20%nat).
  fwd R (i_lock _ _ _ _ _ [] []).
  fwd R (i_spawn _ _ _ _ _ _ _ _ _ [] []).
  fwd R (i_spawn _ _ _ _ _ _ _ _ _ [] []).
  eexists. split; [exact R|]. split; auto. split; [repeat constructor; simpl; intuition discriminate|]. split; reflexivity.
Qed.
(* Three tasks, two workers: one task still queued while both run. *)
Example fifo_ex :
  exists p : pool nat nat (list nat), reach fifo_push fifo_pop [] 2 1 p /\ die p = false /\
    submitted p = [5%nat; 6%nat; 7%nat] /\ busy p = [0%nat; 1%nat] /\ q p = [7%nat].
Proof.
  pose proof (r_init (@fifo_push nat) fifo_pop [] 2 1) as R. unfold pool0 in R. cbn in R.
  add R [] [] 5%nat. fwd R (i_lock _ _ _ _ _ [] []). fwd R (i_spawn _ _ _ _ _ _ _ _ _ [] []). fwd R (i_done _ _ _ _ _ _ [] []).
  add R [] [] 6%nat. fwd R (i_lock _ _ _ _ _ [] []). fwd R (i_spawn _ _ _ _ _ _ _ _ _ [] []). fwd R (i_done _ _ _ _ _ _ [] []).
  add R [] [] 7%nat. fwd R (i_lock _ _ _ _ _ [] []).
  eexists. split; [exact R|]. repeat split.
Qed.

(* ---------------------------------------------------------------- C18 *)
(* After kill_and_join the pool also comes to rest.  At rest the active count
   is the number of tasks that a worker took from the queue and dropped; so
   join_all returns only if no worker obtained a task before seeing the flag. *)
Theorem kill_outcome {T} n c (p : pool T T (list T)) :
  reach fifo_push fifo_pop [] n c p ->
  exists bound, forall k p', irun fifo_pop k p p' ->
    (k <= bound)%nat /\
    (stuck fifo_pop p' ->
       act p' = Z.of_nat (length (in_hand p')) /\
       Permutation (taken p') (signalled p' ++ in_hand p') /\
       (joined p' <-> Permutation (taken p') (signalled p'))).
Proof.
  intros R. exists (measure (@length T) p). intros k p' RUN.
  split; [eapply irun_bound; eauto; apply fifo_size|]. intros ST.
  assert (R' : reach fifo_push fifo_pop [] n c p').
  { clear -R RUN. induction RUN; auto. apply IHRUN. eapply r_int; eauto. }
  pose proof (inv_reach fifo_push fifo_pop n [] c p' eq_refl R') as V'.
  pose proof (stuck_asleep fifo_pop n p' V' ST) as AS.
  destruct (asleep_dead fifo_pop n p' V' AS) as (A1 & A2 & A3 & A4).
  pose proof (v_taken _ _ _ V') as PT. pose proof (v_ran _ _ _ V') as PR. rewrite A3, app_nil_r in PR.
  assert (P : Permutation (taken p') (signalled p' ++ in_hand p')) by (rewrite PT, PR; reflexivity).
  split; [exact A1|]. split; [exact P|]. unfold joined. rewrite A2. split.
  - intros (J & _). rewrite A1 in J. unfold in_hand in P. fold (@held T) in P.
    change (flat_map (fun w : nat * wpc T => match snd w with WRun t | WGot t | WDead t => [t] | _ => [] end) (wk p'))
      with (flat_map held (wk p')) in P.
    destruct (flat_map held (wk p')); [rewrite app_nil_r in P; auto|simpl in J; lia].
  - intros P2. split; auto. rewrite A1. apply Permutation_length in P. apply Permutation_length in P2.
    rewrite app_length in P. unfold in_hand in P.
    change (flat_map (fun w : nat * wpc T => match snd w with WRun t | WGot t | WDead t => [t] | _ => [] end) (wk p'))
      with (flat_map held (wk p')) in P. lia.
Qed.

(* With a second task queued, kill_and_join loses it and never returns. *)
Theorem kill_and_join_refuted :
  exists p : pool nat nat (list nat), reach fifo_push fifo_pop [] 1 1 p /\ die p = true /\
    stuck fifo_pop p /\ ~ joined p /\ submitted p = [5%nat; 6%nat] /\ taken p = [5%nat; 6%nat] /\ ran p = [5%nat].
Proof.
  pose proof (r_init (@fifo_push nat) fifo_pop [] 1 1) as R. unfold pool0 in R. cbn in R.
  add R [] [] 5%nat. fwd R (i_lock _ _ _ _ _ [] []). fwd R (i_spawn _ _ _ _ _ _ _ _ _ [] []). fwd R (i_done _ _ _ _ _ _ [] []).
  add R [] [] 6%nat. fwd R (i_lock _ _ _ _ _ [] []). fwd R (i_done _ _ _ _ _ _ [] []).
  eassert (R' : reach _ _ _ _ _ _); [eapply r_ext; [exact R|eapply e_kill]|]. clear R. rename R' into R.
  fwd R (i_run _ _ _ _ _ _ _ _ _ [] []).
  fwd R (i_signal _ _ _ _ _ _ _ _ _ [] []).
  fwd R (i_next _ _ _ _ _ _ _ _ _ [] []).
  fwd R (i_die _ _ _ _ _ _ _ _ [] []).
  eexists. split; [exact R|]. split; auto. split; [nostep|]. split; [intros (H & _); discriminate|]. repeat split.
Qed.

Print Assumptions fifo_accounting.
Print Assumptions fifo_completes.
Print Assumptions join_means_done.
Print Assumptions zero_threads_refuted.
Print Assumptions ordered_starts_in_order.
Print Assumptions ordered_completes.
Print Assumptions ordered_reuse_refuted.
Print Assumptions kill_outcome.
Print Assumptions kill_and_join_refuted.
