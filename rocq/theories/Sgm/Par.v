(* Additions of several threads to disjoint places of one buffer. *)
From Coq Require Import ZArith List Bool Lia.
From Verif Require Import Lib.Base Lib.Lists ImgMem.Model Lib.Img Sgm.Model Sgm.Spec Sgm.Mem Sgm.Lines.
Import ListNotations.
Local Open Scope Z_scope.

Definition all_todo (ts : list thread) : list (Z * Z) := flat_map todo ts.
Definition idx (ts : list thread) : list Z := map fst (all_todo ts).
Definition loaded_ok (m : list Z) (t : thread) : Prop :=
  match loaded t with
  | None => True
  | Some x => exists i v us, todo t = (i, v) :: us /\ x = at_ m i
  end.
Definition ranged (m : list Z) (ts : list thread) : Prop :=
  forall i v, In (i, v) (all_todo ts) -> 0 <= i < len m.

Lemma all_todo_mid ts1 t ts2 : all_todo (ts1 ++ t :: ts2) = all_todo ts1 ++ todo t ++ all_todo ts2.
Proof. unfold all_todo. rewrite flat_map_app. reflexivity. Qed.

Lemma nodup_app_inv {A} (l l' : list A) : NoDup (l ++ l') -> NoDup l /\ NoDup l' /\ forall x, In x l -> In x l' -> False.
Proof.
  induction l as [|a l IH]; cbn [app]; intros N.
  - split; [constructor|]. split; auto.
  - inversion N; subst. destruct (IH H2) as (A1 & A2 & A3). rewrite in_app_iff in H1. split; [|split; auto].
    + constructor; auto.
    + intros x [->|I] I'; [auto|eauto].
Qed.

Lemma mid_facts m ts1 i v us lo ts2 :
  NoDup (idx (ts1 ++ Thr ((i, v) :: us) lo :: ts2)) -> ranged m (ts1 ++ Thr ((i, v) :: us) lo :: ts2) ->
  0 <= i < len m /\ ~ In i (idx (ts1 ++ Thr us None :: ts2)) /\ NoDup (idx (ts1 ++ Thr us None :: ts2)).
Proof.
  intros N Rg. unfold idx in *. rewrite all_todo_mid in *. cbn [todo] in *.
  assert (EQ : all_todo ts1 ++ ((i, v) :: us) ++ all_todo ts2 = all_todo ts1 ++ (i, v) :: (us ++ all_todo ts2)) by reflexivity.
  rewrite EQ in N. rewrite map_app in N. cbn [map fst] in N. split; [|split].
  - apply (Rg i v). rewrite all_todo_mid. apply in_or_app. right. left. reflexivity.
  - apply NoDup_remove_2 in N. rewrite map_app. exact N.
  - apply NoDup_remove_1 in N. rewrite map_app. exact N.
Qed.

Lemma par_result m ts m' ts' : psteps m ts m' ts' -> Forall finished ts' ->
  NoDup (idx ts) -> ranged m ts -> Forall (loaded_ok m) ts ->
  len m' = len m /\
  (forall i v, In (i, v) (all_todo ts) -> at_ m' i = u16 (at_ m i + v)) /\
  (forall i, 0 <= i -> ~ In i (idx ts) -> at_ m' i = at_ m i).
Proof.
  induction 1 as [m ts|m ts1 t ts2 m1 t1 m2 ts' St Ps IH]; intros F N Rg Lo.
  - split; auto. assert (E : all_todo ts = []).
    { unfold all_todo. induction F as [|t ts [E _] F IHF]; cbn [flat_map]; auto. rewrite E. apply IHF.
      - unfold idx, all_todo in *. cbn [flat_map] in N. rewrite E in N. exact N.
      - intros i v I. apply (Rg i v). unfold all_todo. cbn [flat_map]. rewrite E. exact I.
      - inversion Lo; auto. }
    split; auto. intros i v I. rewrite E in I. destruct I.
  - inversion St; subst; clear St.
    + (* load *) specialize (IH F).
      assert (EI : all_todo (ts1 ++ Thr ((i, v) :: us) (Some (nth (Z.to_nat i) m1 0)) :: ts2) =
                   all_todo (ts1 ++ Thr ((i, v) :: us) None :: ts2)) by (rewrite !all_todo_mid; reflexivity).
      unfold idx, ranged in *. rewrite EI in IH. apply IH; auto.
      apply Forall_app in Lo as [L1 L2]. apply Forall_app. split; auto. inversion L2; subst. constructor; auto.
      cbn [loaded_ok loaded todo]. unfold loaded_ok. cbn [loaded todo]. eauto 6.
    + (* store *) specialize (IH F).
      destruct (mid_facts _ _ _ _ _ _ _ N Rg) as (Ri & Ni & N').
      assert (Hx : x = at_ m i).
      { apply Forall_app in Lo as [_ L2]. inversion L2; subst. unfold loaded_ok in H2. cbn [loaded todo] in H2.
        destruct H2 as (i' & v' & us' & E & ->). congruence. }
      subst x.
      assert (Rg' : ranged (upd m (Z.to_nat i) (u16 (at_ m i + v))) (ts1 ++ Thr us None :: ts2)).
      { intros j u I. rewrite len_upd. apply (Rg j u). rewrite all_todo_mid in *. cbn [todo] in *.
        rewrite !in_app_iff in *. cbn [In]. tauto. }
      assert (Keep : forall j u, In (j, u) (all_todo (ts1 ++ Thr us None :: ts2)) ->
         at_ (upd m (Z.to_nat i) (u16 (at_ m i + v))) j = at_ m j).
      { intros j u I. assert (0 <= j < len m) by (specialize (Rg' j u I); rewrite len_upd in Rg'; auto).
        rewrite at_upd by lia. destruct (Z.eqb_spec j i) as [->|]; auto. exfalso. apply Ni.
        apply in_map_iff. exists (i, u). auto. }
      assert (Lo' : Forall (loaded_ok (upd m (Z.to_nat i) (u16 (at_ m i + v)))) (ts1 ++ Thr us None :: ts2)).
      { assert (K : forall t, In t ts1 \/ In t ts2 -> loaded_ok m t -> loaded_ok (upd m (Z.to_nat i) (u16 (at_ m i + v))) t).
        { intros t It. unfold loaded_ok. destruct (loaded t); auto. intros (j & u & us' & E & ->).
          exists j, u, us'. split; auto. symmetry. apply (Keep j u). rewrite all_todo_mid. cbn [todo].
          destruct It as [It|It]; rewrite !in_app_iff; [left|right; right];
            unfold all_todo; apply in_flat_map; exists t; (split; [auto|rewrite E; left; auto]). }
        apply Forall_app in Lo as [L1 L2]. inversion L2 as [|? ? L3 L4]; subst.
        rewrite Forall_forall in L1, L4. apply Forall_app. split; [|constructor; [exact I|]]; apply Forall_forall.
        - intros t It. apply K; auto.
        - intros t It. apply K; auto. }
      destruct (IH N' Rg' Lo') as (Q1 & Q2 & Q3). rewrite len_upd in Q1. split; auto. split.
      * intros j u I. rewrite all_todo_mid in I. cbn [todo] in I.
        assert (I' : (j, u) = (i, v) \/ In (j, u) (all_todo (ts1 ++ Thr us None :: ts2))).
        { rewrite all_todo_mid. cbn [todo]. rewrite !in_app_iff in *. cbn [In] in I. intuition auto. }
        destruct I' as [E|I'].
        -- injection E as -> ->. rewrite Q3 by (auto; lia). rewrite at_upd by lia. now rewrite Z.eqb_refl.
        -- rewrite (Q2 j u I'). now rewrite (Keep j u I').
      * intros j Hj Nj. rewrite Q3.
        -- rewrite at_upd by lia. destruct (Z.eqb_spec j i) as [->|]; auto. exfalso. apply Nj.
           unfold idx. rewrite all_todo_mid. cbn [todo]. rewrite map_app. apply in_or_app. right. left. auto.
        -- auto.
        -- intros C. apply Nj. unfold idx in *. rewrite all_todo_mid in *. cbn [todo] in *.
           rewrite !map_app, !in_app_iff in *. cbn [map In]. tauto.
Qed.

(* what the steps keep *)
Lemma par_keep m ts m' ts' : psteps m ts m' ts' ->
  NoDup (idx ts) -> ranged m ts -> Forall (loaded_ok m) ts ->
  len m' = len m /\ NoDup (idx ts') /\ ranged m' ts' /\ Forall (loaded_ok m') ts'.
Proof.
  induction 1 as [m ts|m ts1 t ts2 m1 t1 m2 ts' St Ps IH]; intros N Rg Lo; auto.
  inversion St; subst; clear St.
  - assert (EI : all_todo (ts1 ++ Thr ((i, v) :: us) (Some (nth (Z.to_nat i) m1 0)) :: ts2) =
                   all_todo (ts1 ++ Thr ((i, v) :: us) None :: ts2)) by (rewrite !all_todo_mid; reflexivity).
    apply IH.
    + unfold idx. rewrite EI. exact N.
    + intros j u I. rewrite EI in I. exact (Rg j u I).
    + apply Forall_app in Lo as [L1 L2]. apply Forall_app. split; auto. inversion L2; subst. constructor; auto.
      unfold loaded_ok. cbn [loaded todo]. eauto 6.
  - destruct (mid_facts _ _ _ _ _ _ _ N Rg) as (Ri & Ni & N').
    destruct (IH N') as (Q1 & Q2); [| |split; [rewrite len_upd in Q1; auto|auto]].
    + intros j u I. rewrite len_upd. apply (Rg j u). rewrite all_todo_mid in *. cbn [todo] in *.
      rewrite !in_app_iff in *. cbn [In]. tauto.
    + assert (K : forall t, In t ts1 \/ In t ts2 -> loaded_ok m t -> loaded_ok (upd m (Z.to_nat i) (u16 (x + v))) t).
      { intros t It. unfold loaded_ok. destruct (loaded t); auto. intros (j & u & us' & E & ->).
        exists j, u, us'. split; auto.
        assert (I : In (j, u) (all_todo (ts1 ++ Thr us None :: ts2))).
        { rewrite all_todo_mid. cbn [todo].
          destruct It as [It|It]; rewrite !in_app_iff; [left|right; right];
            unfold all_todo; apply in_flat_map; exists t; (split; [auto|rewrite E; left; auto]). }
        assert (0 <= j < len m).
        { apply (Rg j u). rewrite all_todo_mid in *. cbn [todo] in *. rewrite !in_app_iff in *. cbn [In]. tauto. }
        rewrite at_upd by lia. destruct (Z.eqb_spec j i) as [->|]; auto. exfalso. apply Ni.
        apply in_map_iff. exists (i, u). auto. }
      apply Forall_app in Lo as [L1 L2]. inversion L2 as [|? ? L3 L4]; subst.
      rewrite Forall_forall in L1, L4. apply Forall_app. split; [|constructor; [exact I|]]; apply Forall_forall.
      * intros t It. apply K; auto.
      * intros t It. apply K; auto.
Qed.

(* there is always a next step, until everything is done *)
Lemma par_progress m ts : ranged m ts -> Forall (loaded_ok m) ts -> Forall finished ts \/
  exists ts1 t ts2 m' t', ts = ts1 ++ t :: ts2 /\ tstep m t m' t'.
Proof.
  intros Rg Lo.
  assert (D : Forall finished ts \/ exists ts1 t ts2, ts = ts1 ++ t :: ts2 /\ ~ finished t).
  { clear Rg Lo. induction ts as [|t ts IH]; [left; constructor|].
    assert (DF : finished t \/ ~ finished t).
    { unfold finished. destruct (todo t); [|right; intros [C _]; discriminate].
      destruct (loaded t); [right; intros [_ C]; discriminate|left; auto]. }
    destruct DF as [F|F].
    - destruct IH as [IH|(a & u & b & -> & Nu)]; [left; constructor; auto|right; exists (t :: a), u, b; auto].
    - right. exists [], t, ts. auto. }
  destruct D as [D|(a & t & b & -> & Nt)]; [left; auto|right].
  assert (Lt : loaded_ok m t) by (apply Forall_app in Lo as [_ L2]; inversion L2; auto).
  destruct t as [[|[i v] us] lo]; cbn in *.
  - destruct lo; [destruct Lt as (? & ? & ? & E & _); discriminate|]. exfalso. apply Nt. split; auto.
  - assert (0 <= i < Z.of_nat (length m)) by (apply (Rg i v); rewrite all_todo_mid; apply in_or_app; right; left; auto).
    exists a, (Thr ((i, v) :: us) lo), b. destruct lo as [x|].
    + eexists _, _. split; [reflexivity|apply t_store; auto].
    + eexists _, _. split; [reflexivity|apply t_load; auto].
Qed.

Lemma psteps_trans m ts m1 ts1 m2 ts2 : psteps m ts m1 ts1 -> psteps m1 ts1 m2 ts2 -> psteps m ts m2 ts2.
Proof. induction 1; auto. intros. eapply p_step; eauto. Qed.

Lemma run_thread us : forall m before after, (forall i v, In (i, v) us -> 0 <= i < len m) ->
  exists m', psteps m (before ++ Thr us None :: after) m' (before ++ Thr [] None :: after) /\ len m' = len m.
Proof.
  induction us as [|[i v] us IH]; intros m before after Rg.
  - exists m. split; [constructor|auto].
  - assert (Ri : 0 <= i < len m) by (apply (Rg i v); left; auto).
    set (m1 := upd m (Z.to_nat i) (u16 (nth (Z.to_nat i) m 0 + v))).
    destruct (IH m1 before after) as (m' & P & E).
    { intros j u I. unfold m1. rewrite len_upd. apply (Rg j u). right; auto. }
    exists m'. split; [|unfold m1 in E; rewrite len_upd in E; auto].
    eapply p_step; [apply t_load; exact Ri|]. eapply p_step; [apply t_store; exact Ri|]. exact P.
Qed.
Lemma run_all progs : forall m before, (forall us i v, In us progs -> In (i, v) us -> 0 <= i < len m) ->
  Forall finished before ->
  exists m' ts, psteps m (before ++ map (fun us => Thr us None) progs) m' ts /\ Forall finished ts /\ len m' = len m.
Proof.
  induction progs as [|us progs IH]; intros m before Rg F; cbn [map].
  - exists m, before. rewrite app_nil_r. split; [constructor|auto].
  - destruct (run_thread us m before (map (fun us => Thr us None) progs)) as (m1 & P & E).
    { intros i v I. apply (Rg us i v); auto. left; auto. }
    destruct (IH m1 (before ++ [Thr [] None])) as (m' & ts & P' & F' & E').
    { intros us' i v I J. rewrite E. apply (Rg us' i v); auto. right; auto. }
    { apply Forall_app. split; auto. constructor; [split; auto|constructor]. }
    exists m', ts. split; [|split; [auto|lia]]. eapply psteps_trans; [exact P|].
    rewrite <- app_assoc in P'. exact P'.
Qed.
