(* C19: the thread queue is a first-in first-out queue under every schedule,
   and no consumer sleeps while there is something for it. *)
From Coq Require Import ZArith List Lia Bool.
From Verif Require Import Lib.Base TQueue.Model TQueue.Spec.
Import ListNotations.

Lemma fifos_snoc {T} (a : list T) h b e c : fifos a h b -> fifo b e c -> fifos a (h ++ [e]) c.
Proof. intros H. induction H; intros; simpl; econstructor; eauto. constructor. Qed.

(* Every call takes effect at one moment inside the call, and the effects, in
   the order of these moments, are those of a sequential queue. *)
Theorem queue_linearizable {T} n (s : st T) : reach n s -> fifos [] (map snd (hist s)) (q s).
Proof.
  induction 1 as [|s s' R IH ST]; [constructor|].
  destruct ST; simpl in *; rewrite ?map_app; simpl; subst; auto; eapply fifos_snoc; eauto; try constructor.
  destruct Q; split; congruence.
Qed.

Lemma fifos_order {T} (a : list T) h c : fifos a h c -> (forall k, ~ In (EFlush k) h) -> a ++ pushed h = popped h ++ c.
Proof.
  induction 1; intros NF; simpl; [apply app_nil_r|].
  assert (NF' : forall k, ~ In (EFlush k) h) by (intros k Hk; apply (NF k); right; auto). specialize (IHfifos NF').
  destruct H; simpl in *; rewrite ?app_assoc in *; auto; try (rewrite <- IHfifos; simpl; rewrite <- ?app_assoc; reflexivity).
  exfalso. apply (NF (length l)). auto.
Qed.

(* If nobody flushes, what was popped, followed by the contents, is what was
   pushed, in order: nothing is lost, duplicated or reordered. *)
Theorem queue_order {T} n (s : st T) :
  reach n s -> (forall k, ~ In (EFlush k) (map snd (hist s))) ->
  pushed (map snd (hist s)) = popped (map snd (hist s)) ++ q s.
Proof. intros R NF. apply (fifos_order []); auto. apply (queue_linearizable n); auto. Qed.

(* ---- wake-ups ---- *)
Definition asleep (p : pc) : bool := match p with WSleep | TSleep => true | _ => false end.
Definition busy (p : pc) : bool := match p with Notify | WTry | TTry _ => true | _ => false end.
Definition cnt (f : pc -> bool) (l : list pc) : nat := length (filter f l).
Lemma cnt_mid f A p B : cnt f (A ++ p :: B) = (cnt f A + (if f p then 1 else 0) + cnt f B)%nat.
Proof. unfold cnt. rewrite filter_app, app_length. simpl. destruct (f p); simpl; lia. Qed.
Lemma cnt_0 f l : (forall p, In p l -> f p = false) -> cnt f l = 0%nat.
Proof. unfold cnt. induction l; intros H; auto. simpl. rewrite (H a) by (left; auto). apply IHl. intros; apply H; right; auto. Qed.

Lemma wake_inv {T} n (s : st T) : reach n s -> cnt asleep (th s) = 0%nat \/ (length (q s) <= cnt busy (th s))%nat.
Proof.
  induction 1 as [|s s' R IH ST].
  - left. apply cnt_0. simpl. intros p Hp. apply repeat_spec in Hp. subst. reflexivity.
  - destruct ST; simpl q in *; simpl th in *; subst;
      try (match goal with E : ?L = _ |- _ =>
             assert (EA : cnt asleep L = cnt asleep L) by reflexivity; rewrite E in EA at 1;
             assert (EB : cnt busy L = cnt busy L) by reflexivity; rewrite E in EB at 1;
             rewrite !cnt_mid in EA; rewrite !cnt_mid in EB end);
      rewrite !cnt_mid in *; simpl in *; rewrite ?app_length in *; simpl in *; try lia.
    left. unfold asleep. assert (Z : cnt asleep (A ++ B) = 0%nat).
    { apply cnt_0. intros p Hp. destruct (H0 p Hp). destruct p; simpl; congruence. }
    unfold cnt in Z. rewrite filter_app, app_length in Z. unfold cnt, asleep in *. lia.
Qed.

(* No wake-up is lost: when every thread is outside the queue or asleep in it
   and some thread is asleep, the queue is empty.  More precisely there are
   never more elements than threads about to look or to notify. *)
Theorem queue_no_lost_wakeup {T} n (s : st T) :
  reach n s -> In WSleep (th s) \/ In TSleep (th s) ->
  (length (q s) <= length (filter busy (th s)))%nat /\
  ((forall p, In p (th s) -> p = Idle \/ p = WSleep \/ p = TSleep) -> q s = []).
Proof.
  intros R SL. destruct (wake_inv n s R) as [Z|L].
  - exfalso. destruct SL as [H|H]; apply in_split in H; destruct H as (A & B & E); rewrite E, cnt_mid in Z; simpl in Z; lia.
  - split; auto. intros AL. assert (Z : cnt busy (th s) = 0%nat).
    { apply cnt_0. intros p Hp. destruct (AL p Hp) as [->|[->| ->]]; reflexivity. }
    destruct (q s); auto. simpl in L. lia.
Qed.

(* Two consumers asleep, one message pushed: exactly the state the theorem is
   about, reached by a run. *)
Example queue_ex : exists s : st nat, reach 3 s /\ th s = [WSleep; WSleep; Notify] /\ q s = [4%nat].
Proof.
  eexists. split; [|split].
  - eapply r_step; [|eapply (s_push [WSleep; WSleep] [] _ _ 4%nat)].
    eapply r_step; [|eapply (s_wait_sleep [WSleep] [Idle]); reflexivity].
    eapply r_step; [|eapply (s_wait [WSleep] [Idle])].
    eapply r_step; [|eapply (s_wait_sleep [] [Idle; Idle]); reflexivity].
    eapply r_step; [|eapply (s_wait [] [Idle; Idle])]. apply r_init.
  - reflexivity.
  - reflexivity.
Qed.

Print Assumptions queue_linearizable.
Print Assumptions queue_order.
Print Assumptions queue_no_lost_wakeup.
