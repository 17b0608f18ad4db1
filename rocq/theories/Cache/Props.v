(* C13, C14, C15. *)
From Coq Require Import ZArith List Lia Bool.
From Verif Require Import Lib.Base Cache.Model Cache.Dll Cache.Spec Cache.Proofs Cache.Conc Cache.ConcProofs.
Import ListNotations.
Local Open Scope Z_scope.

Lemma reached_winv {V} (gen : line -> V) s : reached gen s -> exists Va Iv, winv gen s Va Iv None.
Proof. intros (max & ops & H). eapply steps_spec; [apply winv0|exact H]. Qed.
Lemma reached_holds {V} (gen : line -> V) s Va Iv : reached gen s -> holds gen s Va Iv -> winv gen s Va Iv None.
Proof.
  intros R H. destruct (reached_winv gen s R) as (Va' & Iv' & W).
  destruct (holds_det gen s _ _ _ _ H (winv_holds gen s _ _ W)) as [-> ->]. exact W.
Qed.

(* ---------------------------------------------------------------- C13 *)
(* After any history of inserts, accesses, releases, deprioritize, resizes and
   drops the lists are well formed: walking forward and backward sees the same
   lines in opposite order, every existing line is in exactly one list, the
   loaded ones are exactly those of the first list, each holding what its
   generator produces, and the size counter is the sum of their sizes. *)
Theorem cache_wellformed {V} (gen : line -> V) max ops s :
  steps gen (cache0 max) ops = Ok s -> exists Va Iv, holds gen s Va Iv.
Proof.
  intros H. destruct (reached_winv gen s) as (Va & Iv & W); [exists max, ops; auto|].
  exists Va, Iv. apply winv_holds; auto.
Qed.

(* How each operation changes the order. *)
Theorem cache_order {V} (gen : line -> V) s o s' Va Iv :
  reached gen s -> holds gen s Va Iv -> step gen s o = Ok s' ->
  exists Iv', holds gen s' (order_after s o Va) Iv'.
Proof.
  intros R H E. destruct (step_spec gen s Va Iv o s' (reached_holds gen s Va Iv R H) E) as (I' & W).
  exists I'. apply winv_holds; auto.
Qed.

(* No operation follows a bad pointer.  The only ways not to return are to use
   a dropped line, to release what is not held, to shrink below zero, or to
   wait for a line that the caller itself still holds. *)
Theorem cache_total {V} (gen : line -> V) s o :
  reached gen s ->
  match step gen s o with
  | Ok _ => True
  | Throw e => e = LogicErr /\ match o with
      | OValue l | ORelease l | ODepri l | ODrop l => live s l = false
      | OResize n => n < 0 | OInsert _ => False end
  | UB u => match o with
      | ORelease l => pins s l = 0%nat
      | ODepri l | ODrop l => pins s l <> 0%nat
      | OResize n => exists l, lval s l <> None /\ pins s l <> 0%nat
      | OValue _ | OInsert _ => False end
  end.
Proof.
  intros R. destruct (reached_winv gen s R) as (Va & Iv & W).
  destruct o as [sz|l|l|l|n|l]; cbn [step]; auto; unfold with_line.
  - destruct (live s l) eqn:HL; [|auto].
    destruct (in_dec Nat.eq_dec l Va) as [HI|HI].
    + destruct (value_hit gen s Va Iv l W HI) as (s1 & -> & _). exact I.
    + assert (HP : pins s l = 0%nat).
      { destruct (Nat.eq_dec (pins s l) 0) as [|H]; auto. exfalso. apply HI, (w_val _ _ _ _ _ W). left.
        apply (w_pin _ _ _ _ _ W l H). }
      destruct (value_miss gen s Va Iv l W HL HI HP) as (s1 & I1 & -> & _). exact I.
  - destruct (live s l) eqn:HL; [|auto]. unfold do_release. destruct (pins s l); auto.
  - destruct (live s l) eqn:HL; [|auto]. destruct (Nat.eq_dec (pins s l) 0) as [HP|HP].
    + destruct (depri_spec gen s Va Iv l W HP) as (s1 & -> & _). exact I.
    + unfold do_deprioritize, free. destruct (Nat.eqb_spec (pins s l) 0); [contradiction|]. cbn. auto.
  - unfold do_resize.
    set (s0 := St _ _ _ _ _ _ _ _ _ _).
    pose proof (winv_setmax gen s Va Iv n W) as W0. fold s0 in W0.
    assert (HN : n = cmax s0) by reflexivity. assert (HP : pins s0 = pins s) by reflexivity.
    assert (HV : forall l, lval s0 l <> None -> lval s l <> None) by auto.
    pose proof (members_bound gen s Va Iv None W) as MB.
    assert (HF : (length Va < fuel_of s)%nat) by (unfold fuel_of; nia).
    assert (GEN : forall f s1 Va1 I1, winv gen s1 Va1 I1 None -> n = cmax s1 -> pins s1 = pins s ->
      (forall l, lval s1 l <> None -> lval s l <> None) -> (length Va1 < f)%nat ->
      match shrink f s1 with Ok _ => True | Throw e => e = LogicErr /\ n < 0
        | UB _ => exists l, lval s l <> None /\ pins s l <> 0%nat end).
    { clear. induction f as [|f IH]; intros s0 Va Iv W0 HN HP HV HF; [lia|]. cbn [shrink].
      destruct (csz s0 >? cmax s0) eqn:EC; [|exact I].
      pose proof (w_rep _ _ _ _ _ W0) as (_ & EL & _ & _ & _ & ND). rewrite EL.
      destruct Va as [|v Va' _] using rev_ind.
      { cbn [lasto]. split; auto. pose proof (w_size _ _ _ _ _ W0) as Z. unfold total in Z. simpl in Z. lia. }
      rewrite lasto_app. destruct (Nat.eq_dec (pins s0 v) 0) as [HPv|HPv].
      - destruct (linvalidate_spec gen s0 _ _ v W0 HPv) as (s1 & I1 & E1 & F & W1).
        rewrite E1. cbn [bind]. rewrite rm_mid, app_nil_r in W1 by apply (nodup_app_l _ _ ND).
        rewrite app_length in HF. simpl in HF. destruct F as (F1 & F2 & F3 & F4 & F5 & F6 & F7).
        apply (IH s1 Va' I1); try congruence; try lia; auto.
        intros l Hl. apply HV. assert (In l Va') by (apply (w_val _ _ _ _ _ W1); auto).
        assert (In l (Va' ++ [v])) by (apply in_or_app; auto). apply (w_val _ _ _ _ _ W0) in H0. destruct H0; [auto|discriminate].
      - unfold l_invalidate, free. destruct (Nat.eqb_spec (pins s0 v) 0); [contradiction|]. cbn [andb bind].
        exists v. rewrite <- HP. split; auto. apply HV.
        assert (In v (Va' ++ [v])) by (apply in_or_app; simpl; auto). apply (w_val _ _ _ _ _ W0) in H. destruct H; [auto|discriminate]. }
    apply (GEN (fuel_of s) s0 Va Iv); auto.
  - destruct (live s l) eqn:HL; [|auto]. destruct (Nat.eq_dec (pins s l) 0) as [HP|HP].
    + destruct (drop_spec gen s Va Iv l W HL HP) as (s1 & I1 & -> & _). exact I.
    + unfold do_drop, l_invalidate, free. destruct (Nat.eqb_spec (pins s l) 0); [contradiction|]. cbn. auto.
Qed.

(* The order is the order of generation, not of use: an access that finds its
   value does not refresh the line, and the line used last is evicted first. *)
Definition seq3 : list cop :=
  [OInsert 1; OInsert 1; OInsert 1; OValue 0%nat; ORelease 0%nat; OValue 1%nat; ORelease 1%nat; OValue 0%nat; ORelease 0%nat; OValue 2%nat].
Theorem recency_of_use_refuted :
  exists s, steps (fun l => l) (cache0 2) seq3 = Ok s /\ lval s 0%nat = None /\ lval s 1%nat = Some 1%nat.
Proof. eexists. split; [vm_compute; reflexivity|]. split; vm_compute; reflexivity. Qed.

Example cache_ex : exists s, steps (fun l => l) (cache0 2) seq3 = Ok s /\ csz s = 2 /\
  chain (nx (ps s)) (fv (ps s)) [2%nat; 1%nat] /\ chain (pv (ps s)) (lv (ps s)) [1%nat; 2%nat] /\ pins s 2%nat = 1%nat.
Proof. eexists. split; [vm_compute; reflexivity|]. repeat split; vm_compute; reflexivity. Qed.

(* ---------------------------------------------------------------- C14 *)
(* Accessing an existing line always returns what its generator produces, adds
   one pin to it, and generates exactly when the value was not loaded. *)
Theorem value_result {V} (gen : line -> V) s l :
  reached gen s -> live s l = true ->
  exists s', do_value gen (fuel_of s) s l = Ok (s', gen l) /\
    pins s' l = S (pins s l) /\ (forall x, x <> l -> pins s' x = pins s x) /\
    lval s' l = Some (gen l) /\
    gens s' l = (if lval s l then gens s l else S (gens s l)) /\ (forall x, x <> l -> gens s' x = gens s x).
Proof.
  intros R HL. destruct (reached_winv gen s R) as (Va & Iv & W).
  destruct (in_dec Nat.eq_dec l Va) as [HI|HI].
  - unfold do_value. rewrite (stuck_none gen s Va Iv l W).
    apply (w_val _ _ _ _ _ W) in HI. destruct HI as [HI|]; [|discriminate].
    destruct (lval s l) as [v|] eqn:EV; [|congruence].
    pose proof (w_gen _ _ _ _ _ W l v EV) as EG. subst v. eexists. split; [reflexivity|].
    cbn [pins gens lval]. rewrite upd_same. split; [|split; [|split; [|split]]]; auto.
    intros x Hx. apply upd_other; auto.
  - assert (HP : pins s l = 0%nat).
    { destruct (Nat.eq_dec (pins s l) 0) as [|H]; auto. exfalso. apply HI, (w_val _ _ _ _ _ W). left.
      apply (w_pin _ _ _ _ _ W l H). }
    destruct (value_miss gen s Va Iv l W HL HI HP) as (s1 & I1 & E & P1 & P2 & G1 & G2 & _ & _ & W1).
    exists s1. split; auto. rewrite HP. split; auto. split; auto.
    assert (EV : lval s l = None).
    { destruct (lval s l) eqn:EV; auto. exfalso. apply HI, (w_val _ _ _ _ _ W). left; congruence. }
    rewrite EV. split; auto.
    apply winv_holds in W1. apply (h_loaded _ _ _ _ W1). simpl; auto.
Qed.

(* What an access leaves loaded: either everything fits, or all the other
   loaded lines are in use.  Nothing in use is ever evicted, and an evicted line
   is older than every unused line that stays. *)
Theorem value_evicts {V} (gen : line -> V) s l s' v Va Iv :
  reached gen s -> holds gen s Va Iv -> live s l = true -> lval s l = None ->
  do_value gen (fuel_of s) s l = Ok (s', v) ->
  exists kept Iv', holds gen s' (l :: kept) Iv' /\ sublist (rev kept) (rev Va) /\
    (csz s' <= cmax s' \/ forall x, In x kept -> pins s' x <> 0%nat) /\
    (forall x, In x Va -> ~ In x kept -> pins s x = 0%nat) /\
    (forall x y, In x Va -> ~ In x kept -> In y kept -> pins s y = 0%nat -> before y x Va).
Proof.
  intros R H HL HV E. pose proof (reached_holds gen s Va Iv R H) as W.
  assert (HI : ~ In l Va). { intros X. apply (w_val _ _ _ _ _ W) in X. destruct X; [congruence|discriminate]. }
  assert (HP : pins s l = 0%nat).
  { destruct (Nat.eq_dec (pins s l) 0) as [|X]; auto. exfalso. apply (w_pin _ _ _ _ _ W l X). auto. }
  destruct (value_miss gen s Va Iv l W HL HI HP) as (s1 & I1 & E1 & P1 & P2 & G1 & G2 & M & SZ & W1).
  rewrite E in E1. injection E1 as -> ->.
  set (sv := survivors (pinned s) (lsize s) (cmax s) (csz s + lsize s l) (rev Va)) in *.
  assert (NDV : NoDup (rev Va)).
  { apply NoDup_rev. destruct (w_rep _ _ _ _ _ W) as (_ & _ & _ & _ & _ & X). apply (nodup_app_l _ _ X). }
  assert (PB : forall x, pinned s x = false <-> pins s x = 0%nat).
  { intros x. unfold pinned. rewrite negb_false_iff. apply Nat.eqb_eq. }
  assert (TOT : forall f L, total f (rev L) = total f L).
  { intros f L. unfold total. induction L; simpl; auto. rewrite map_app, zsum_app. simpl. lia. }
  exists (rev sv), I1. split; [apply winv_holds; auto|]. split; [rewrite rev_involutive; apply surv_sub|].
  split; [|split].
  - destruct (surv_size gen (pinned s) (lsize s) (cmax s) (rev Va) (csz s + lsize s l)) as [X|X]; fold sv in X.
    + left. rewrite M, (w_size _ _ _ _ _ W1), SZ. unfold total at 1. simpl. fold (total (lsize s) (rev sv)).
      rewrite TOT in *. rewrite (w_size _ _ _ _ _ W) in X. lia.
    + right. intros x Hx. apply in_rev in Hx. specialize (X x Hx).
      assert (x <> l). { intros ->. apply HI. apply in_rev.
        pose proof (surv_sub (pinned s) (lsize s) (cmax s) (rev Va) (csz s + lsize s l)) as S. fold sv in S.
        clear -S Hx. revert Hx. induction S; simpl; auto. intros [->|Y]; auto. }
      rewrite P2 by auto. intros Y. apply PB in Y. congruence.
  - intros x Hx HN. apply PB. eapply (surv_evicted gen); [apply -> in_rev; exact Hx|exact NDV|].
    intros Y. apply HN. apply in_rev. rewrite rev_involutive. exact Y.
  - intros x y Hx HN Hy HPy. apply PB in HPy.
    assert (B : before x y (rev Va)).
    { eapply (surv_oldest gen (pinned s) (lsize s) (cmax s)); eauto.
      - apply -> in_rev; auto.
      - intros Y. apply HN. apply in_rev. rewrite rev_involutive. exact Y.
      - apply in_rev. auto. }
    destruct B as (a & b & c & EB). exists (rev c), (rev b), (rev a).
    rewrite <- (rev_involutive Va), EB. rewrite rev_app_distr. simpl. rewrite rev_app_distr. simpl.
    rewrite <- !app_assoc. reflexivity.
Qed.

(* An access to a loaded line leaves the other lines alone. *)
Theorem value_hit_keeps {V} (gen : line -> V) s l s' v Va Iv :
  reached gen s -> holds gen s Va Iv -> lval s l <> None -> do_value gen (fuel_of s) s l = Ok (s', v) ->
  holds gen s' Va Iv /\ csz s' = csz s.
Proof.
  intros R H HV E. pose proof (reached_holds gen s Va Iv R H) as W.
  assert (HI : In l Va) by (apply (w_val _ _ _ _ _ W); auto).
  destruct (value_hit gen s Va Iv l W HI) as (s1 & E1 & _ & _ & _ & Z & _ & _ & W1).
  rewrite E in E1. injection E1 as -> ->. split; auto. apply winv_holds; auto.
Qed.

(* Shrinking: if nothing is in use, resize returns, the newest lines that fit
   stay, and the size is within the new bound. *)
Theorem resize_bound {V} (gen : line -> V) s n s' :
  reached gen s -> step gen s (OResize n) = Ok s' -> csz s' <= n /\ cmax s' = n.
Proof.
  intros R E. destruct (reached_winv gen s R) as (Va & Iv & W). cbn [step] in E. unfold do_resize in E.
  destruct (shrink_inv gen _ _ Va Iv s' (winv_setmax gen s Va Iv n W) E) as (I1 & F & W1 & LE).
  destruct F as (_ & _ & _ & _ & _ & EM & _). cbn [cmax] in EM. lia.
Qed.
Theorem resize_returns {V} (gen : line -> V) s n :
  reached gen s -> 0 <= n -> (forall l, lval s l <> None -> pins s l = 0%nat) ->
  exists s', step gen s (OResize n) = Ok s'.
Proof.
  intros R Hn HP. pose proof (cache_total gen s (OResize n) R) as T.
  destruct (step gen s (OResize n)) as [s'|e|u]; [eauto| |].
  - destruct T; lia.
  - destruct T as (l & H1 & H2). exfalso. auto.
Qed.
(* With the oldest line in use resize waits for it forever. *)
Theorem resize_waits_refuted :
  exists s, steps (fun l => l) (cache0 2) [OInsert 1; OInsert 1; OValue 0%nat; OValue 1%nat; ORelease 1%nat] = Ok s /\
            step (fun l => l) s (OResize 1) = UB NoTerm.
Proof. eexists. split; vm_compute; reflexivity. Qed.

(* If generate() throws, the line stays locked, counts as loaded and every
   later access to it waits forever. *)
Theorem generator_failure_refuted :
  exists s s', steps (fun l => l) (cache0 2) [OInsert 1] = Ok s /\
    do_value_throw (fuel_of s) s 0%nat = Ok s' /\
    csz s' = 1 /\ lval s' 0%nat = None /\ fv (ps s') = Some 0%nat /\
    do_value (fun l => l) (fuel_of s') s' 0%nat = UB NoTerm /\ step (fun l => l) s' (ODrop 0%nat) = UB NoTerm.
Proof. do 2 eexists. split; [vm_compute; reflexivity|]. split; [vm_compute; reflexivity|]. repeat split; vm_compute; reflexivity. Qed.

Definition st6 : list cop := [OInsert 2; OInsert 3; OInsert 4; OValue 0%nat; OValue 1%nat; ORelease 1%nat].
(* 0 is in use, 1 is not: access to 2 drops 1 and keeps 0 although the size stays over the limit *)
Example value_evicts_ex : exists s s', steps (fun l => l) (cache0 5) st6 = Ok s /\
  holds (fun l => l) s [1; 0]%nat [2]%nat /\
  do_value (fun l => l) (fuel_of s) s 2%nat = Ok (s', 2%nat) /\ lval s' 1%nat = None /\ lval s' 0%nat = Some 0%nat /\ csz s' = 6.
Proof.
  assert (E : exists s, steps (fun l => l) (cache0 5) st6 = Ok s) by (eexists; vm_compute; reflexivity).
  destruct E as (s & E). destruct (cache_wellformed _ _ _ _ E) as (Va & Iv & H). exists s.
  assert (Va = [1; 0]%nat). { eapply (chain_det (nx (ps s))); [apply (h_fwd _ _ _ _ H)|]. vm_compute in E. injection E as <-. repeat split. }
  assert (Iv = [2]%nat). { eapply (chain_det (nx (ps s))); [apply (h_inv _ _ _ _ H)|]. vm_compute in E. injection E as <-. repeat split. }
  subst. vm_compute in E. injection E as E. subst s.
  eexists. split; [vm_compute; reflexivity|]. split; [exact H|]. split; [vm_compute; reflexivity|]. repeat split; vm_compute; reflexivity.
Qed.

(* ---------------------------------------------------------------- C15 *)
Section C15.
  Context {V : Type} (gen : line -> V) (sz : line -> Z).

  (* Whatever the interleaving, a thread that got a value and has not released
     it finds it loaded and equal to what the generator produces. *)
  Theorem held_value_stays n s l :
    reach gen sz n s -> In (Hold l) (thr s) -> cval s l = Some (gen l).
  Proof. intros R H. exact (i_H gen s (cinv_reach gen sz n s R) l H). Qed.

  (* No thread modifies a line while another one holds or modifies it, and at
     most one is inside Cache::allocate. *)
  Theorem line_exclusive n s l p q A B C :
    reach gen sz n s -> thr s = A ++ p :: B ++ q :: C ->
    In p [Excl l; Alloc l; Gen l; Inv l] ->
    ~ In q [Shared l; Hold l; Excl l; Alloc l; Gen l; Inv l].
  Proof.
    intros R E HP HQ. pose proof (cinv_reach gen sz n s R) as [IR IW IC IX IH IV].
    specialize (IR l). specialize (IW l). rewrite E in IR, IW.
    rewrite cnt_mid in IR, IW. rewrite app_assoc, cnt_mid in IR, IW.
    assert (P1 : isW l p = 1%nat) by (simpl in HP; destruct HP as [<-|[<-|[<-|[<-|[]]]]]; simpl; rewrite Nat.eqb_refl; auto).
    assert (Q1 : (isW l q + isR l q = 1)%nat).
    { simpl in HQ. destruct HQ as [<-|[<-|[<-|[<-|[<-|[<-|[]]]]]]]; simpl; rewrite Nat.eqb_refl; auto. }
    destruct (writer s l) eqn:EW; [|lia]. specialize (IX l EW). lia.
  Qed.
  Theorem one_allocator n s l x A B C :
    reach gen sz n s -> thr s <> A ++ Alloc l :: B ++ Alloc x :: C.
  Proof.
    intros R E. pose proof (cinv_reach gen sz n s R) as [IR IW IC IX IH IV].
    rewrite E, cnt_mid, app_assoc, cnt_mid in IC. cbn [isC] in IC. destruct (cm s); lia.
  Qed.

  (* The size counter: each loaded line counts once, a line being generated
     once, and once more for every time it was generated while loaded. *)
  Theorem size_accounting n s Ls :
    NoDup Ls -> reach_in gen sz Ls n s ->
    csize s = zsum (map (fun l => sz l * Z.of_nat (
      (if is_some (cval s l) then 1 else 0) +
      length (filter (fun p => match p with Alloc x | Gen x => Nat.eqb x l | _ => false end) (thr s)) +
      extra s l)) Ls).
  Proof.
    intros ND R. rewrite (accounted gen sz Ls ND n s R). f_equal. apply map_ext. intros l. unfold load, ld. do 4 f_equal.
    clear. induction (thr s) as [|p t IH]; simpl; auto. rewrite IH.
    destruct p; simpl; auto; destruct (Nat.eqb l0 l); simpl; auto.
  Qed.
  (* so it never falls below what is loaded *)
  Theorem size_covers n s Ls :
    NoDup Ls -> (forall l, 0 <= sz l) -> reach_in gen sz Ls n s ->
    zsum (map (fun l => if is_some (cval s l) then sz l else 0) Ls) <= csize s.
  Proof.
    intros ND HS R. rewrite (size_accounting n s Ls ND R). clear ND R. induction Ls as [|a L IH]; simpl; [lia|].
    specialize (HS a). destruct (is_some (cval s a)); nia.
  Qed.

  (* No deadlock: if some thread is inside a call and nobody holds a value,
     some thread inside a call can move. *)
  Theorem cache_progress n s p :
    reach gen sz n s -> In p (thr s) -> p <> Idle -> (forall l, ~ In (Hold l) (thr s)) ->
    exists A q q' B s', thr s = A ++ q :: B /\ q <> Idle /\ tstep gen sz q s q' s'.
  Proof. intros R. apply progress. exact (cinv_reach gen sz n s R). Qed.
End C15.

(* Two threads that miss the same line both generate it, and its size stays
   counted twice after everything is released. *)
Tactic Notation "fwd" ident(R) constr(A) constr(B) constr(T) :=
  let R' := fresh "R" in
  eassert (R' : reach (fun l => l) (fun _ => 1) 2 _);
  [eapply (r_step _ _ 2); [exact R|eapply (c_step _ _ A _ B); [reflexivity|eapply T; reflexivity]]|];
  cbn in R'; clear R; rename R' into R.
Theorem double_generation_refuted :
  exists s, reach (fun l => l) (fun _ => 1) 2 s /\ thr s = [Idle; Idle] /\
    ngen s 0%nat = 2%nat /\ cval s 0%nat = Some 0%nat /\ csize s = 2.
Proof.
  pose proof (r_init (fun l : line => l) (fun _ => 1) 2) as R. unfold idle_state in R. cbn in R.
  fwd R (@nil pc) [Idle] (t_value (fun l => l) (fun _ => 1) 0%nat).
  fwd R [Shared 0%nat] (@nil pc) (t_value (fun l => l) (fun _ => 1) 0%nat).
  fwd R (@nil pc) [Shared 0%nat] (t_miss (fun l => l) (fun _ => 1) 0%nat).
  fwd R [Want 0%nat] (@nil pc) (t_miss (fun l => l) (fun _ => 1) 0%nat).
  fwd R (@nil pc) [Want 0%nat] (t_lock (fun l => l) (fun _ => 1) 0%nat).
  fwd R (@nil pc) [Want 0%nat] (t_alloc (fun l => l) (fun _ => 1) 0%nat).
  fwd R (@nil pc) [Want 0%nat] (t_unlock (fun l => l) (fun _ => 1) 0%nat).
  fwd R (@nil pc) [Want 0%nat] (t_gen (fun l => l) (fun _ => 1) 0%nat).
  fwd R (@nil pc) [Want 0%nat] (t_release (fun l => l) (fun _ => 1) 0%nat).
  fwd R [Idle] (@nil pc) (t_lock (fun l => l) (fun _ => 1) 0%nat).
  fwd R [Idle] (@nil pc) (t_alloc (fun l => l) (fun _ => 1) 0%nat).
  fwd R [Idle] (@nil pc) (t_unlock (fun l => l) (fun _ => 1) 0%nat).
  fwd R [Idle] (@nil pc) (t_gen (fun l => l) (fun _ => 1) 0%nat).
  fwd R [Idle] (@nil pc) (t_release (fun l => l) (fun _ => 1) 0%nat).
  eexists. split; [exact R|]. repeat split.
Qed.
Example held_ex : exists s, reach (fun l => l) (fun _ => 1) 2 s /\ thr s = [Hold 0%nat; Want 0%nat].
Proof.
  pose proof (r_init (fun l : line => l) (fun _ => 1) 2) as R. unfold idle_state in R. cbn in R.
  fwd R (@nil pc) [Idle] (t_value (fun l => l) (fun _ => 1) 0%nat).
  fwd R [Shared 0%nat] (@nil pc) (t_value (fun l => l) (fun _ => 1) 0%nat).
  fwd R (@nil pc) [Shared 0%nat] (t_miss (fun l => l) (fun _ => 1) 0%nat).
  fwd R [Want 0%nat] (@nil pc) (t_miss (fun l => l) (fun _ => 1) 0%nat).
  fwd R (@nil pc) [Want 0%nat] (t_lock (fun l => l) (fun _ => 1) 0%nat).
  fwd R (@nil pc) [Want 0%nat] (t_alloc (fun l => l) (fun _ => 1) 0%nat).
  fwd R (@nil pc) [Want 0%nat] (t_unlock (fun l => l) (fun _ => 1) 0%nat).
  fwd R (@nil pc) [Want 0%nat] (t_gen (fun l => l) (fun _ => 1) 0%nat).
  eexists. split; [exact R|]. reflexivity.
Qed.

Print Assumptions cache_wellformed.
Print Assumptions cache_order.
Print Assumptions cache_total.
Print Assumptions recency_of_use_refuted.
Print Assumptions value_result.
Print Assumptions value_evicts.
Print Assumptions value_hit_keeps.
Print Assumptions resize_bound.
Print Assumptions resize_returns.
Print Assumptions resize_waits_refuted.
Print Assumptions generator_failure_refuted.
Print Assumptions held_value_stays.
Print Assumptions line_exclusive.
Print Assumptions one_allocator.
Print Assumptions size_accounting.
Print Assumptions size_covers.
Print Assumptions cache_progress.
Print Assumptions double_generation_refuted.
