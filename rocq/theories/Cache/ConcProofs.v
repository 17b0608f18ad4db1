From Coq Require Import ZArith List Lia Bool.
From Verif Require Import Lib.Base Cache.Model Cache.Dll Cache.Spec Cache.Proofs Cache.Conc.
Import ListNotations.
Local Open Scope Z_scope.

Definition isR (l : line) (p : pc) : nat := match p with Shared x | Hold x => if Nat.eqb x l then 1 else 0 | _ => 0 end.
Definition isW (l : line) (p : pc) : nat := match p with Excl x | Alloc x | Gen x | Inv x => if Nat.eqb x l then 1 else 0 | _ => 0 end.
Definition isC (p : pc) : nat := match p with Alloc _ => 1 | _ => 0 end.
Definition isG (l : line) (p : pc) : nat := match p with Alloc x | Gen x => if Nat.eqb x l then 1 else 0 | _ => 0 end.
Fixpoint cnt (f : pc -> nat) (T : list pc) : nat := match T with [] => 0 | p :: t => (f p + cnt f t)%nat end.
Lemma cnt_mid f A p B : cnt f (A ++ p :: B) = (f p + cnt f (A ++ B))%nat.
Proof. induction A; simpl; auto. rewrite IHA. lia. Qed.
Lemma cnt_pos f T p : In p T -> (f p <= cnt f T)%nat.
Proof. induction T; simpl; [tauto|]. intros [->|H]; [lia|]. apply IHT in H. lia. Qed.
Lemma cnt_ex f T : (0 < cnt f T)%nat -> exists p, In p T /\ (0 < f p)%nat.
Proof.
  induction T as [|a T IH]; simpl; [lia|]. intros H. destruct (f a) eqn:E.
  - destruct IH as (p & ? & ?); [lia|]. exists p; auto.
  - exists a. split; auto. lia.
Qed.

Section P.
  Context {V : Type} (gen : line -> V) (sz : line -> Z) (Ls : list line).
  Hypothesis NDL : NoDup Ls.
  Notation cst := (@cst V).

  Definition ld (s : cst) (l : line) : nat := if is_some (cval s l) then 1 else 0.
  Definition load (s : cst) (l : line) : Z := sz l * Z.of_nat (ld s l + cnt (isG l) (thr s) + extra s l).

  Record cinv (s : cst) : Prop := Cinv {
    i_R : forall l, readers s l = cnt (isR l) (thr s);
    i_W : forall l, (if writer s l then 1 else 0)%nat = cnt (isW l) (thr s);
    i_C : (if cm s then 1 else 0)%nat = cnt isC (thr s);
    i_X : forall l, writer s l = true -> readers s l = 0%nat;
    i_H : forall l, In (Hold l) (thr s) -> cval s l = Some (gen l);
    i_V : forall l v, cval s l = Some v -> v = gen l }.

  Ltac simp := cbn [thr readers writer cm csize cval extra ngen with_thr] in *.
  Ltac bools := repeat (unfold upd in *; match goal with
    | |- context [Nat.eqb ?a ?b] => destruct (Nat.eqb_spec a b); subst
    | H : context [Nat.eqb ?a ?b] |- _ => destruct (Nat.eqb_spec a b); subst end).

  Lemma cinv0 n : cinv (idle_state n).
  Proof.
    constructor; simp; unfold idle_state; simp; intros; auto; try discriminate.
    - induction n; simpl; auto.
    - induction n; simpl; auto.
    - induction n; simpl; auto.
    - exfalso. apply repeat_spec in H. discriminate.
  Qed.

  Lemma cinv_step s s' : cinv s -> cstep gen sz s s' -> cinv s'.
  Proof.
    intros [IR IW IC IX IH IV] ST. destruct ST as [A p B s q s' ET TS].
    assert (R0 := fun l => IR l). assert (W0 := fun l => IW l).
    rewrite ET in *.
    assert (IR' : forall l, readers s l = (isR l p + cnt (isR l) (A ++ B))%nat) by (intros; rewrite IR; apply cnt_mid).
    assert (IW' : forall l, (if writer s l then 1 else 0)%nat = (isW l p + cnt (isW l) (A ++ B))%nat) by (intros; rewrite IW; apply cnt_mid).
    assert (IC' : (if cm s then 1 else 0)%nat = (isC p + cnt isC (A ++ B))%nat) by (rewrite IC; apply cnt_mid).
    assert (IHo : forall l, In (Hold l) (A ++ B) -> cval s l = Some (gen l)).
    { intros l H. apply IH. rewrite in_app_iff in *. simpl. tauto. }
    assert (HR : forall l, In (Hold l) (A ++ B) -> (0 < cnt (isR l) (A ++ B))%nat).
    { intros l H. pose proof (cnt_pos (isR l) _ _ H) as Q. simpl in Q. rewrite Nat.eqb_refl in Q. lia. }
    clear R0 W0 IR IW IC.
    assert (MIDH : forall q l, In (Hold l) (A ++ q :: B) -> q = Hold l \/ In (Hold l) (A ++ B)).
    { intros q0 l H. rewrite in_app_iff in *. simpl in H. tauto. }
    assert (IHp : forall l, p = Hold l -> cval s l = Some (gen l)).
    { intros l ->. apply IH. apply in_or_app. simpl; auto. }
    clear IH ET.
    destruct TS; simp; constructor; simp.
    all: try (intros l0; rewrite cnt_mid; specialize (IR' l0); cbn [isR] in *; bools; solve [lia|auto]).
    all: try (intros l0; rewrite cnt_mid; specialize (IW' l0); cbn [isW] in *; bools; repeat match goal with H : ?W ?l = _ |- _ => rewrite H in * end; solve [lia|auto]).
    all: try (rewrite cnt_mid; cbn [isC] in *; solve [lia|auto]).
    all: try (intros l0 v0; bools; solve [auto|discriminate|congruence]).
    all: try (intros l0 HX; bools; solve [auto|discriminate|congruence]).
    all: try (intros l0 HX; apply MIDH in HX; destruct HX as [HX|HX]; [solve [inversion HX; subst; auto; bools; auto; congruence|discriminate]|]; bools; auto).
    all: try (intros l0; rewrite cnt_mid; specialize (IW' l0); cbn [isW] in *; bools; destruct (W l0) + destruct (W l); lia).
    all: try (intros l0 HX; specialize (IX l0 HX); bools; rewrite ?IX; auto).
    - intros l0 HX. apply MIDH in HX. destruct HX as [HX|HX]; auto. injection HX as <-.
      destruct (v l) as [w|] eqn:E; [|congruence]. rewrite (IV l w E). reflexivity.
    - exfalso. apply HR in HX. specialize (IR' x). cbn [isR] in IR'. lia.
    - rewrite cnt_mid. cbn [isC] in *. destruct c; lia.
    - exfalso. apply HR in HX. specialize (IR' l). cbn [isR] in IR'. specialize (IW' l). cbn [isW] in IW'.
      rewrite Nat.eqb_refl in IW'. destruct (W l) eqn:EW; [|lia]. specialize (IX l EW). lia.
  Qed.

  Lemma cinv_reach n s : reach gen sz n s -> cinv s.
  Proof. induction 1; [apply cinv0|eapply cinv_step; eauto]. Qed.

  (* ---- accounting ---- *)
  Lemma zsum_upd (f g : line -> Z) x L : NoDup L -> In x L -> (forall y, y <> x -> g y = f y) ->
    zsum (map g L) = zsum (map f L) + (g x - f x).
  Proof.
    induction L as [|a L IH]; simpl; [tauto|]. intros N H E. inversion N; subst.
    destruct (Nat.eq_dec a x) as [->|NE].
    - assert (EQ : map g L = map f L) by (apply map_ext_in; intros y Hy; apply E; intros ->; auto). rewrite EQ. lia.
    - destruct H as [H|H]; [congruence|]. rewrite (E a NE), IH; auto. lia.
  Qed.
  Lemma zsum_same (f g : line -> Z) L : (forall y, g y = f y) -> zsum (map g L) = zsum (map f L).
  Proof. intros E. f_equal. apply map_ext. auto. Qed.

  (* every step changes the accounted size and the load of a single line alike *)
  Lemma load_step s s' : cinv s -> cstep gen sz s s' ->
    (csize s' = csize s /\ forall y, load s' y = load s y) \/
    (exists x, (forall y, y <> x -> load s' y = load s y) /\ csize s' - csize s = load s' x - load s x /\ (In x (concat (map lines_of (thr s'))) \/ cval s x <> None)).
  Proof.
    intros [IR IW IC IX IH IV] ST. destruct ST as [A p B s q s' ET TS].
    unfold load, ld. cbn [thr with_thr extra cval csize]. rewrite ET.
    destruct TS; simp.
    all: try (left; split; [reflexivity|]; intros y; rewrite !cnt_mid; cbn [isG]; reflexivity).
    - right. exists l. split; [|split].
      + intros y Hy. rewrite !cnt_mid. cbn [isG]. bools; try congruence; try lia; reflexivity.
      + rewrite !cnt_mid. cbn [isG]. rewrite Nat.eqb_refl. lia.
      + left. rewrite map_app, concat_app. apply in_or_app. right. simpl. auto.
    - right. exists x. split; [|split].
      + intros y Hy. rewrite upd_other by auto. reflexivity.
      + rewrite upd_same. destruct (v x); [|congruence]. simpl. lia.
      + right. auto.
    - left. split; auto. intros y. rewrite !cnt_mid. cbn [isG]. unfold upd. destruct (Nat.eqb_spec l y) as [->|NE].
      + rewrite Nat.eqb_refl. destruct (v y); cbn [is_some]; rewrite ?Nat.eqb_refl; lia.
      + destruct (Nat.eqb_spec y l); [congruence|]. destruct (is_some (v l)); auto.
        destruct (Nat.eqb_spec y l); [congruence|]. auto.
    - right. exists l. split; [|split].
      + intros y Hy. rewrite !cnt_mid, upd_other by auto. cbn [isG]. reflexivity.
      + rewrite upd_same, !cnt_mid. destruct (v l); [|congruence]. cbn [isG is_some]. lia.
      + right. auto.
  Qed.

  Lemma repeat_concat n : concat (map lines_of (repeat Idle n)) = [].
  Proof. induction n; simpl; auto. Qed.

  Lemma reach_in_reach n s : reach_in gen sz Ls n s -> reach gen sz n s.
  Proof. induction 1; [constructor|econstructor; eauto]. Qed.

  Lemma loaded_in n s : reach_in gen sz Ls n s -> forall x, cval s x <> None -> In x Ls.
  Proof.
    intros R. pose proof R as R0. induction R as [|s s' R IH ST IN]; [intros x H; simpl in H; congruence|].
    specialize (IH R). intros x Hx. destruct ST as [A p B s q s' ET TS]. destruct TS; simp; auto.
    - apply IH. simp. unfold upd in Hx. destruct (Nat.eqb x x0); congruence.
    - unfold upd in Hx. destruct (Nat.eqb_spec x l); subst; [|apply IH; simp; auto].
      apply IN. rewrite map_app, concat_app. apply in_or_app. right. simpl. auto.
    - apply IH. simp. unfold upd in Hx. destruct (Nat.eqb x l); congruence.
  Qed.

  Lemma accounted n s : reach_in gen sz Ls n s -> csize s = zsum (map (load s) Ls).
  Proof.
    intros R. pose proof R as R0. induction R as [|s s' R IH ST IN].
    - unfold load, ld, idle_state. simp. symmetry. 
      assert (E : forall y, cnt (isG y) (repeat Idle n) = 0%nat) by (intros; clear; induction n; simpl; auto).
      rewrite (map_ext _ (fun _ => 0)); [clear; induction Ls; simpl; lia|].
      intros y. rewrite E. cbn [is_some]. lia.
    - specialize (IH R). pose proof (cinv_reach _ _ (reach_in_reach _ _ R)) as CI.
      destruct (load_step s s' CI ST) as [(E1 & E2)|(x & E1 & E2 & E3)].
      + rewrite E1, IH. symmetry. apply zsum_same; auto.
      + assert (HX : In x Ls) by (destruct E3 as [H|H]; [apply IN; exact H|exact (loaded_in n s R x H)]).
        rewrite (zsum_upd (load s) (load s') x Ls NDL HX E1). lia.
  Qed.

  (* ---- progress ---- *)
  Lemma stepI p s q s' A B : thr s = A ++ p :: B -> tstep gen sz p s q s' -> exists s'', cstep gen sz s s''.
  Proof. intros. eexists. econstructor; eauto. Qed.

  (* Some thread that is inside a call can move, unless all of them wait for
     lines held by users. *)
  Lemma progress s p : cinv s -> In p (thr s) -> p <> Idle -> (forall l, ~ In (Hold l) (thr s)) ->
    exists A q q' B s', thr s = A ++ q :: B /\ q <> Idle /\ tstep gen sz q s q' s'.
  Proof.
    intros [IR IW IC IX IH IV] Hp NI NH.
    assert (MV : forall q q' s', In q (thr s) -> q <> Idle -> tstep gen sz q s q' s' ->
             exists A q q' B s', thr s = A ++ q :: B /\ q <> Idle /\ tstep gen sz q s q' s').
    { intros q q' s' Hq Nq T. destruct (in_split _ _ Hq) as (A & B & E). exists A, q, q', B, s'. auto. }
    (* whoever is inside allocate or about to generate can go on *)
    assert (GO : forall q, In q (thr s) -> match q with Shared _ | Alloc _ | Gen _ => True | _ => False end ->
             exists A q q' B s', thr s = A ++ q :: B /\ q <> Idle /\ tstep gen sz q s q' s').
    { intros q Hq. destruct s as [T R W c z v e g]. destruct q as [|l|l|l|l|l|l|l]; try tauto; intros _.
      - destruct (v l) eqn:E; eapply MV; try exact Hq; try discriminate; [eapply t_hit|eapply t_miss]; congruence.
      - eapply MV; [exact Hq|discriminate|apply t_unlock].
      - eapply MV; [exact Hq|discriminate|apply t_gen]. }
    assert (GX : forall q, In q (thr s) -> match q with Excl _ | Inv _ => True | _ => False end ->
             exists A q q' B s', thr s = A ++ q :: B /\ q <> Idle /\ tstep gen sz q s q' s').
    { intros q Hq HM. destruct (cm s) eqn:EC.
      - assert (HC : (0 < cnt isC (thr s))%nat) by lia.
        destruct (cnt_ex _ _ HC) as (r & Hr & Pr). destruct r; simpl in Pr; try lia. eapply GO; [exact Hr|exact I].
      - destruct s as [T R W c z v e g]. simp. subst c. destruct q as [|l|l|l|l|l|l|l]; try tauto.
        + eapply MV; [exact Hq|discriminate|apply t_alloc].
        + destruct (v l) eqn:E; eapply MV; try exact Hq; try discriminate; [apply t_inv_some; congruence|apply t_inv_none; auto]. }
    destruct p as [|l|l|l|l|l|l|l]; try congruence.
    - eapply GO; [exact Hp|exact I].
    - (* Want *)
      destruct (writer s l) eqn:EW.
      + specialize (IW l). rewrite EW in IW.
        destruct (cnt_ex (isW l) (thr s)) as (r & Hr & Pr); [lia|].
        destruct r; simpl in Pr; try lia; (eapply GX; [exact Hr|exact I]) || (eapply GO; [exact Hr|exact I]).
      + destruct (readers s l) eqn:ER.
        * destruct s as [T R W c z v e g]. simp. eapply MV; [exact Hp|discriminate|apply t_lock; auto].
        * rewrite IR in ER. destruct (cnt_ex (isR l) (thr s)) as (r & Hr & Pr); [lia|].
          destruct r; simpl in Pr; try lia; [eapply GO; [exact Hr|exact I]|exfalso; eapply NH; eauto].
    - eapply GX; [exact Hp|exact I].
    - eapply GO; [exact Hp|exact I].
    - eapply GO; [exact Hp|exact I].
    - exfalso. eapply NH; eauto.
    - eapply GX; [exact Hp|exact I].
  Qed.
End P.
