From Coq Require Import ZArith List Lia Bool Permutation.
From Verif Require Import Lib.Base Pool.Model.
Import ListNotations.

Section P.
  Context {T S Q : Type}.
  Variable push : Q -> S -> Q.
  Variable pop : Q -> option (T * Q).
  Notation pool := (pool T S Q).
  Notation istep := (istep pop).
  Notation estep := (estep push).

  Definition held (w : nat * wpc T) : list T :=
    match snd w with WRun t | WGot t | WDead t => [t] | _ => [] end.
  Definition ended (w : nat * wpc T) : list T := match snd w with WEnd t => [t] | _ => [] end.
  Definition isloop (c : cpc) : nat := match c with CLoop => 1 | _ => 0 end.
  Fixpoint cnt {A} (f : A -> nat) (l : list A) : nat := match l with [] => 0 | a :: t => f a + cnt f t end.
  Lemma cnt_mid {A} (f : A -> nat) X a Y : cnt f (X ++ a :: Y) = f a + cnt f (X ++ Y).
  Proof. induction X; simpl; auto. rewrite IHX. lia. Qed.
  Lemma cnt_app {A} (f : A -> nat) X Y : cnt f (X ++ Y) = cnt f X + cnt f Y.
  Proof. induction X; simpl; auto. rewrite IHX. lia. Qed.
  Lemma fm_mid {A B} (f : A -> list B) X a Y : Permutation (flat_map f (X ++ a :: Y)) (f a ++ flat_map f (X ++ Y)).
  Proof.
    rewrite !flat_map_app. simpl. rewrite app_assoc.
    rewrite (Permutation_app_comm (flat_map f X) (f a)). rewrite <- app_assoc. reflexivity.
  Qed.

  Variable N : nat.
  Record inv (p : pool) : Prop := Inv {
    v_act : act p = Z.of_nat (length (wk p));
    v_ids : Permutation (ids p ++ map fst (wk p)) (seq 0 N);
    v_qm : (if qm p then 1 else 0) = cnt isloop (cl p);
    v_taken : Permutation (taken p) (ran p ++ flat_map held (wk p));
    v_ran : Permutation (ran p) (signalled p ++ flat_map ended (wk p));
    v_wake : ids p = [] \/ pop (q p) = None \/ exists c, In c (cl p) /\ c <> CIdle;
    v_dead : die p = false -> forall i t, ~ In (i, WDead t) (wk p) }.

  Lemma inv0 q0 c : pop q0 = None -> inv (pool0 q0 N c).
  Proof.
    intros E. constructor; simpl; auto.
    - rewrite app_nil_r. reflexivity.
    - induction c; simpl; auto.
  Qed.

  Lemma in_mid {A} (x a b : A) X Y : In x (X ++ a :: Y) -> x = a \/ In x (X ++ b :: Y).
  Proof. rewrite !in_app_iff. simpl. intuition. Qed.

  Lemma wake_mid (c d : cpc) A B : d <> CIdle -> (exists x, In x (A ++ c :: B) /\ x <> CIdle) -> exists x, In x (A ++ d :: B) /\ x <> CIdle.
  Proof. intros. exists d. split; auto. apply in_or_app; simpl; auto. Qed.

  Lemma fm_swap {A B} (f : A -> list B) X a b Y : f a = f b -> flat_map f (X ++ a :: Y) = flat_map f (X ++ b :: Y).
  Proof. intros E. rewrite !flat_map_app. simpl. rewrite E. reflexivity. Qed.
  Lemma fm_drop {A B} (f : A -> list B) X a Y : f a = [] -> flat_map f (X ++ a :: Y) = flat_map f (X ++ Y).
  Proof. intros E. rewrite !flat_map_app. simpl. rewrite E. reflexivity. Qed.
  Lemma map_fst_mid (X : list (nat * wpc T)) i (w w' : wpc T) Y : map fst (X ++ (i, w) :: Y) = map fst (X ++ (i, w') :: Y).
  Proof. rewrite !map_app. reflexivity. Qed.
  Lemma len_mid {A} X (a b : A) Y : length (X ++ a :: Y) = length (X ++ b :: Y).
  Proof. rewrite !app_length. reflexivity. Qed.

  Lemma inv_istep p p' : inv p -> istep p p' -> inv p'.
  Proof.
    intros [VA VI VQ VT VR VW VD] ST.
    destruct ST; cbn [q ids act die qm cl wk submitted taken ran signalled] in *; constructor;
      cbn [q ids act die qm cl wk submitted taken ran signalled] in *; auto.
    all: try (rewrite (len_mid _ _ (i, WRun x)) in *; exact VA).
    all: try (rewrite VA; rewrite !app_length; simpl; lia).
    all: try (rewrite cnt_mid in *; simpl in *; destruct m; lia).
    all: try (rewrite cnt_mid in *; simpl in *; lia).
    all: try (erewrite map_fst_mid; exact VI).
    - right; right. exists CLoop. split; [apply in_or_app; simpl; auto|discriminate].
    - rewrite map_app. simpl. rewrite app_assoc. rewrite Permutation_app_comm. simpl in *.
      rewrite <- VI. reflexivity.
    - rewrite flat_map_app. simpl. rewrite VT. rewrite <- app_assoc. reflexivity.
    - rewrite flat_map_app. simpl. rewrite app_nil_r. auto.
    - right; right. exists CLoop. split; [apply in_or_app; simpl; auto|discriminate].
    - intros E j u Hj. apply in_app_or in Hj. destruct Hj as [Hj|[Hj|[]]]; [eapply VD; eauto|discriminate].
    - destruct H; auto.
    - rewrite fm_mid in VT. rewrite (fm_drop held) by reflexivity. rewrite VT. simpl. rewrite <- app_assoc.
      simpl. reflexivity.
    - rewrite fm_mid. rewrite (fm_drop ended) in VR by reflexivity. simpl. rewrite VR at 1.
      rewrite <- app_assoc. apply Permutation_app_head. apply Permutation_app_comm.
    - intros E j u Hj. apply in_mid with (b := (i, WRun x)) in Hj. destruct Hj as [Hj|Hj]; [discriminate|eapply VD; eauto].
    - rewrite (fm_drop held) in * by reflexivity. auto.
    - rewrite (fm_drop ended) by reflexivity. rewrite fm_mid in VR. simpl in VR. rewrite VR. rewrite <- app_assoc. reflexivity.
    - intros E j u Hj. apply in_mid with (b := (i, WEnd x)) in Hj. destruct Hj as [Hj|Hj]; [discriminate|eapply VD; eauto].
    - rewrite fm_mid. simpl. rewrite (fm_drop held) in VT by reflexivity. rewrite VT.
      rewrite <- app_assoc. apply Permutation_app_head. apply Permutation_app_comm.
    - rewrite (fm_drop ended) in * by reflexivity. auto.
    - destruct VW as [VW|[VW|VW]]; auto. congruence.
    - intros E j u Hj. apply in_mid with (b := (i, WNext)) in Hj. destruct Hj as [Hj|Hj]; [discriminate|eapply VD; eauto].
    - rewrite <- VI. rewrite <- app_assoc. simpl. apply Permutation_app_head. rewrite !map_app. simpl. apply Permutation_middle.
    - rewrite (fm_drop held) in VT by reflexivity. auto.
    - rewrite (fm_drop ended) in VR by reflexivity. auto.
    - intros E j u Hj. eapply VD; eauto. rewrite in_app_iff in *. simpl. destruct Hj; eauto.
    - rewrite (fm_swap held _ (i, WRun x) (i, WGot x)) by reflexivity. auto.
    - rewrite (fm_drop ended) in * by reflexivity. auto.
    - intros E j u Hj. apply in_mid with (b := (i, WGot x)) in Hj. destruct Hj as [Hj|Hj]; [discriminate|eapply VD; eauto].
    - rewrite (fm_swap held _ (i, WDead x) (i, WGot x)) by reflexivity. auto.
    - rewrite (fm_drop ended) in * by reflexivity. auto.
    - discriminate.
  Qed.

  Lemma inv_estep p p' : inv p -> estep p p' -> inv p'.
  Proof.
    intros [VA VI VQ VT VR VW VD] ST.
    destruct ST; cbn [q ids act die qm cl wk submitted taken ran signalled] in *; constructor;
      cbn [q ids act die qm cl wk submitted taken ran signalled] in *; auto.
    - rewrite cnt_mid in *. auto.
    - right; right. exists CNotify. split; [apply in_or_app; simpl; auto|discriminate].
    - discriminate.
  Qed.

  Lemma inv_reach q0 c p : pop q0 = None -> reach push pop q0 N c p -> inv p.
  Proof. intros E. induction 1; [apply inv0; auto|eapply inv_istep; eauto|eapply inv_estep; eauto]. Qed.

  (* ---- an internal step is possible unless everybody is idle or dead ---- *)
  Lemma cnt_in {A} (f : A -> nat) l : 0 < cnt f l -> exists x, In x l /\ 0 < f x.
  Proof.
    induction l as [|a l IH]; simpl; [lia|]. intros H. destruct (f a) eqn:E.
    - destruct IH as (x & ? & ?); [lia|]. exists x; auto.
    - exists a. split; auto. lia.
  Qed.

  Definition asleep (p : pool) : Prop :=
    (forall c, In c (cl p) -> c = CIdle) /\ (forall w, In w (wk p) -> exists i t, w = (i, WDead t)).

  Lemma stuck_asleep p : inv p -> stuck pop p -> asleep p.
  Proof.
    intros [VA VI VQ VT VR VW VD] ST. destruct p as [Q0 I a d m C W s t r g].
    cbn [q ids act die qm cl wk submitted taken ran signalled] in *.
    assert (NL : forall c, In c C -> c <> CLoop).
    { intros c Hc ->. destruct (in_split _ _ Hc) as (A & B & ->).
      destruct I as [|i I]; [eapply ST, i_done; auto|]. destruct (pop Q0) as [[x Q1]|] eqn:E.
      - eapply ST, i_spawn; eauto.
      - eapply ST, i_done; eauto. }
    assert (M : m = false).
    { destruct m; auto. destruct (cnt_in isloop C) as (c & Hc & Pc); [lia|]. destruct c; simpl in Pc; try lia.
      exfalso. eapply NL; eauto. }
    subst m. split; cbn [cl wk].
    - intros c Hc. destruct c; auto.
      + exfalso. destruct (in_split _ _ Hc) as (A & B & ->). eapply ST, i_lock.
      + exfalso. eapply NL; eauto.
    - intros [i w] Hw. destruct (in_split _ _ Hw) as (A & B & ->). destruct w as [x|x| |x|x].
      + exfalso. eapply ST, i_run.
      + exfalso. eapply ST, i_signal.
      + exfalso. destruct (pop Q0) as [[x Q1]|] eqn:E; eapply ST; [eapply i_next; eauto|eapply i_exit; eauto].
      + exfalso. destruct d; eapply ST; [eapply i_die|eapply i_again].
      + eauto.
  Qed.

  (* ---- termination ---- *)
  Variable size : Q -> nat.
  Hypothesis pop_size : forall q t q', pop q = Some (t, q') -> size q' < size q.
  Definition wc (c : cpc) : nat := match c with CIdle => 0 | CNotify => 2 | CLoop => 1 end.
  Definition ww (w : nat * wpc T) : nat :=
    match snd w with WRun _ => 4 | WEnd _ => 3 | WNext => 2 | WGot _ => 5 | WDead _ => 0 end.
  Definition measure (p : pool) : nat := 6 * size (q p) + cnt wc (cl p) + cnt ww (wk p).
  Lemma measure_istep p p' : istep p p' -> measure p' < measure p.
  Proof.
    intros ST. destruct ST; unfold measure; cbn [q cl wk]; rewrite ?cnt_mid, ?cnt_app; cbn [wc ww snd cnt];
      try (apply pop_size in H); try lia.
  Qed.

  Inductive irun : nat -> pool -> pool -> Prop :=
  | run0 p : irun 0 p p
  | runS n p p' p'' : istep p p' -> irun n p' p'' -> irun (1 + n) p p''.
  Lemma irun_bound n p p' : irun n p p' -> n <= measure p.
  Proof. induction 1; [lia|]. apply measure_istep in H. lia. Qed.
  Lemma irun_inv n p p' : irun n p p' -> inv p -> inv p'.
  Proof. induction 1; auto. intros. apply IHirun. eapply inv_istep; eauto. Qed.
  Lemma istep_die (p p' : pool) : istep p p' -> die p' = die p /\ submitted p' = submitted p.
  Proof. destruct 1; auto. Qed.
  Lemma irun_die n (p p' : pool) : irun n p p' -> die p' = die p /\ submitted p' = submitted p.
  Proof. induction 1; auto. apply istep_die in H. destruct H, IHirun. split; congruence. Qed.

  Lemma asleep_dead p : inv p -> asleep p -> act p = Z.of_nat (length (flat_map held (wk p))) /\
    qm p = false /\ flat_map ended (wk p) = [] /\ (1 <= N -> length (wk p) < N -> pop (q p) = None).
  Proof.
    intros [VA VI VQ VT VR VW VD] [HC HW]. split; [|split; [|split]].
    - rewrite VA. f_equal. clear -HW. induction (wk p) as [|w W IH]; simpl; auto.
      destruct (HW w) as (i & t & ->); simpl; auto. rewrite IH; auto. intros; apply HW; simpl; auto.
    - destruct (qm p); auto. destruct (cnt_in isloop (cl p)) as (c & Hc & Pc); [lia|]. rewrite (HC c Hc) in Pc. simpl in Pc. lia.
    - clear -HW. induction (wk p) as [|w W IH]; simpl; auto.
      destruct (HW w) as (i & t & ->); simpl; auto. apply IH. intros; apply HW; simpl; auto.
    - intros HN HL. apply Permutation_length in VI. rewrite app_length, map_length, seq_length in VI.
      destruct VW as [E|[E|(c & Hc & Nc)]]; auto; [rewrite E in VI; simpl in VI; lia|]. exfalso. apply Nc, HC; auto.
  Qed.
  Lemma nodead_empty p : inv p -> asleep p -> die p = false -> wk p = [].
  Proof.
    intros V [_ HW] HD. destruct (wk p) as [|w W] eqn:E; auto. destruct (HW w) as (i & t & ->); [simpl; auto|].
    exfalso. eapply (v_dead p V HD i t). rewrite E. simpl; auto.
  Qed.
End P.
