(* The pointer operations of Cache.cc act on lists. *)
From Coq Require Import ZArith List Lia Bool.
From Verif Require Import Lib.Base Cache.Model.
Import ListNotations.

Definition hdo (l : list line) (e : ptr) : ptr := match l with [] => e | a :: _ => Some a end.
Fixpoint lasto (p : ptr) (l : list line) : ptr := match l with [] => p | a :: t => lasto (Some a) t end.
Fixpoint seg (n m : line -> ptr) (p : ptr) (l : list line) (e : ptr) : Prop :=
  match l with [] => True | a :: t => m a = p /\ n a = hdo t e /\ seg n m (Some a) t e end.

Definition rm (l : line) (L : list line) : list line := filter (fun x => negb (Nat.eqb x l)) L.

Lemma in_rm l L x : In x (rm l L) <-> In x L /\ x <> l.
Proof. unfold rm. rewrite filter_In, negb_true_iff, Nat.eqb_neq. tauto. Qed.
Lemma rm_notin l L : ~ In l L -> rm l L = L.
Proof.
  induction L as [|a L IH]; simpl; auto. intros H.
  destruct (Nat.eqb_spec a l); simpl; [subst; tauto|]. f_equal. unfold rm in IH. apply IH; tauto.
Qed.
Lemma rm_app l A B : rm l (A ++ B) = rm l A ++ rm l B.
Proof. unfold rm. apply filter_app. Qed.
Lemma rm_mid l A B : NoDup (A ++ l :: B) -> rm l (A ++ l :: B) = A ++ B.
Proof.
  intros N. apply NoDup_remove in N. destruct N as [_ N].
  rewrite rm_app. simpl. rewrite Nat.eqb_refl. simpl. fold (rm l B).
  rewrite !rm_notin; auto; intros H; apply N, in_or_app; auto.
Qed.
Lemma nodup_rm l L : NoDup L -> NoDup (rm l L).
Proof. apply NoDup_filter. Qed.

Lemma upd_same {A} (f : line -> A) l a : upd f l a l = a.
Proof. unfold upd. rewrite Nat.eqb_refl. reflexivity. Qed.
Lemma upd_other {A} (f : line -> A) l a x : x <> l -> upd f l a x = f x.
Proof. intros. unfold upd. destruct (Nat.eqb_spec x l); congruence. Qed.

Lemma seg_app n m A : forall p B e, seg n m p (A ++ B) e <-> seg n m p A (hdo B e) /\ seg n m (lasto p A) B e.
Proof.
  induction A as [|a A IH]; intros; simpl; [tauto|].
  rewrite IH. assert (E : hdo (A ++ B) e = hdo A (hdo B e)) by (destruct A; reflexivity). rewrite E. tauto.
Qed.
Lemma seg_ext n m n' m' A : forall p e,
  (forall x, In x A -> n x = n' x /\ m x = m' x) -> seg n m p A e -> seg n' m' p A e.
Proof.
  induction A as [|a A IH]; intros p e H S; simpl in *; auto.
  destruct (H a) as [<- <-]; auto. destruct S as (? & ? & ?). repeat split; auto.
Qed.
Lemma lasto_app p A a : lasto p (A ++ [a]) = Some a.
Proof. revert p; induction A; simpl; auto. Qed.
Lemma lasto_in p A x : lasto p A = Some x -> p = Some x /\ A = [] \/ In x A.
Proof.
  revert p; induction A as [|a A IH]; simpl; intros p H; [left; auto|].
  right. destruct (IH _ H) as [[E _]|]; [inversion E; auto|auto].
Qed.
Lemma hdo_in A e x : hdo A e = Some x -> A = [] /\ e = Some x \/ In x A.
Proof. destruct A; simpl; intros H; [left; auto|right; inversion H; auto]. Qed.

Lemma seg_end n m A a e e' p : ~ In a A -> seg n m p (A ++ [a]) e -> seg (upd n a e') m p (A ++ [a]) e'.
Proof.
  intros N. rewrite !seg_app. simpl. intros (S & S1 & S2 & _). split.
  - eapply seg_ext; [|exact S]. intros x Hx. split; auto. rewrite upd_other; auto. intros ->; auto.
  - rewrite upd_same. auto.
Qed.
Lemma seg_start n m B b p p' e : ~ In b B -> seg n m p (b :: B) e -> seg n (upd m b p') p' (b :: B) e.
Proof.
  intros N (S1 & S2 & S3). simpl. rewrite upd_same. repeat split; auto.
  eapply seg_ext; [|exact S3]. intros x Hx. split; auto. rewrite upd_other; auto. intros ->; auto.
Qed.

(* heads and tails of the two lists are set apart from the links *)
Lemma extract_heads ps l : fv (extract ps l) = fv ps /\ lv (extract ps l) = lv ps /\ fi (extract ps l) = fi ps.
Proof. unfold extract. destruct (nx ps l); simpl; destruct (upd _ _ _ l) || destruct (pv ps l); simpl; auto; destruct (pv ps l); simpl; auto. Qed.

Lemma extract_seg ps l A B : NoDup (A ++ l :: B) -> seg (nx ps) (pv ps) None (A ++ l :: B) None ->
  let ps' := extract ps l in
  seg (nx ps') (pv ps') None (A ++ B) None /\
  (forall x, ~ In x (A ++ B) -> nx ps' x = nx ps x /\ pv ps' x = pv ps x).
Proof.
  intros N S. pose proof S as S0. apply seg_app in S. destruct S as (SA & SL). simpl in SL. destruct SL as (Pl & Nl & SB).
  simpl in SA. unfold extract.
  assert (NB : ~ In l B /\ ~ In l A).
  { apply NoDup_remove_2 in N. rewrite in_app_iff in N. tauto. }
  assert (DA : forall x, In x A -> ~ In x (l :: B)).
  { intros x Hx Hy. clear - N Hx Hy. induction A; simpl in *; [tauto|]. inversion N; subst.
    destruct Hx as [->|Hx]; [apply H1, in_or_app; auto|auto]. }
  assert (NDA : NoDup A). { clear - N. induction A; simpl in *; constructor; inversion N; subst; auto. intros H. apply H1, in_or_app; auto. }
  assert (NDB : NoDup B). { clear - N. apply NoDup_remove_1 in N. induction A; simpl in *; auto. inversion N; auto. }
  set (ps1 := set_pv ps (nx ps l) (pv ps l)).
  assert (E1 : nx ps1 = nx ps /\ pv ps1 l = pv ps l).
  { unfold ps1. rewrite Nl. destruct B as [|b B]; simpl; auto. split; auto. rewrite upd_other; auto. intros ->; simpl in NB; tauto. }
  destruct E1 as [E1 E2]. rewrite E1, E2, Nl, Pl.
  assert (SB' : seg (nx ps1) (pv ps1) (lasto None A) B None).
  { unfold ps1. rewrite Nl, Pl. destruct B as [|b B]; simpl; auto.
    inversion NDB; subst. apply (seg_start (nx ps) (pv ps) B b (Some l)); auto. }
  assert (SA' : seg (nx ps1) (pv ps1) None A (Some l)).
  { eapply seg_ext; [|exact SA]. intros x Hx. rewrite E1. split; auto.
    unfold ps1. rewrite Nl. destruct B as [|b B]; simpl; auto. rewrite upd_other; auto.
    intros ->. apply (DA b Hx). simpl; auto. }
  destruct A as [|a A'] using rev_ind.
  - simpl in *. split; auto. intros x Hx. rewrite E1. split; auto.
    unfold ps1. rewrite Nl. destruct B as [|b B]; simpl; auto. rewrite upd_other; auto. intros ->; simpl in Hx; tauto.
  - clear IHA'. rewrite lasto_app in *. cbn [set_nx nx pv]. split.
    + apply seg_app. rewrite lasto_app. split.
      * apply seg_end with (e := Some l); auto. apply NoDup_remove in NDA. rewrite app_nil_r in NDA. tauto.
      * eapply seg_ext; [|exact SB']. intros x Hx. split; auto. rewrite upd_other; auto.
        intros ->. apply (DA a); simpl; auto. apply in_or_app; simpl; auto.
    + intros x Hx. rewrite !in_app_iff in Hx. simpl in Hx. split.
      * rewrite upd_other; [rewrite E1; auto|]. intros ->. tauto.
      * unfold ps1. rewrite Nl. destruct B as [|b B]; simpl; auto. rewrite upd_other; auto. intros ->; simpl in Hx; tauto.
Qed.

(* ps represents the valid list V (most recent first) and the invalid list I *)
Definition rep (ps : ptrs) (V I : list line) : Prop :=
  fv ps = hdo V None /\ lv ps = lasto None V /\ fi ps = hdo I None /\
  seg (nx ps) (pv ps) None V None /\ seg (nx ps) (pv ps) None I None /\ NoDup (V ++ I).

Lemma nodup_app_l {A} (X Y : list A) : NoDup (X ++ Y) -> NoDup X.
Proof. induction X; simpl; intros H; constructor; inversion H; subst; auto. rewrite in_app_iff in *. tauto. Qed.
Lemma nodup_app_r {A} (X Y : list A) : NoDup (X ++ Y) -> NoDup Y.
Proof. induction X; simpl; auto. intros H; inversion H; auto. Qed.
Lemma nodup_disj {A} (X Y : list A) x : NoDup (X ++ Y) -> In x X -> In x Y -> False.
Proof. induction X; simpl; [tauto|]. intros H [->|Hx] Hy; inversion H; subst; [apply H2, in_or_app; auto|auto]. Qed.
Lemma nodup_app_mk {A} (X Y : list A) : NoDup X -> NoDup Y -> (forall x, In x X -> ~ In x Y) -> NoDup (X ++ Y).
Proof.
  induction X; simpl; auto. intros H1 H2 D. inversion H1; subst. constructor.
  - rewrite in_app_iff. intros [?|?]; [tauto|]. apply (D a); auto.
  - apply IHX; auto.
Qed.

Lemma peq_spec p l : peq p l = true <-> p = Some l.
Proof. destruct p; simpl; [rewrite Nat.eqb_eq; split; congruence|split; discriminate]. Qed.
Lemma peq_false p l : peq p l = false <-> p <> Some l.
Proof. rewrite <- not_true_iff_false, peq_spec. tauto. Qed.

Lemma hdo_rm l A B : NoDup (A ++ l :: B) ->
  hdo (A ++ B) None = if peq (hdo (A ++ l :: B) None) l then hdo B None else hdo (A ++ l :: B) None.
Proof.
  intros N. destruct A as [|a A]; simpl; [rewrite Nat.eqb_refl; reflexivity|].
  destruct (Nat.eqb_spec a l); auto. subst. inversion N; subst. exfalso. apply H1, in_or_app. simpl; auto.
Qed.
Lemma lasto_cat p A B : lasto p (A ++ B) = lasto (lasto p A) B.
Proof. revert p; induction A; simpl; auto. Qed.
Lemma lasto_nonempty p q B : B <> [] -> lasto p B = lasto q B.
Proof. destruct B; simpl; congruence. Qed.
Lemma lasto_rm l A B : NoDup (A ++ l :: B) ->
  lasto None (A ++ B) = if peq (lasto None (A ++ l :: B)) l then lasto None A else lasto None (A ++ l :: B).
Proof.
  intros N. rewrite !lasto_cat. simpl. destruct B as [|b B].
  - simpl. rewrite Nat.eqb_refl. reflexivity.
  - rewrite (lasto_nonempty (lasto None A) (Some l)) by discriminate.
    destruct (peq (lasto (Some l) (b :: B)) l) eqn:E; auto. apply peq_spec in E.
    apply NoDup_remove_2 in N. exfalso. apply N. apply in_or_app. right.
    rewrite (lasto_nonempty (Some l) None) in E by discriminate.
    apply lasto_in in E. destruct E as [[? ?]|?]; [discriminate|auto].
Qed.

(* l in the list with middle decomposition: pv l and nx l *)
Lemma seg_mid n m A l B : seg n m None (A ++ l :: B) None -> m l = lasto None A /\ n l = hdo B None.
Proof. rewrite seg_app. simpl. tauto. Qed.

Lemma push_front n m L l : ~ In l L -> NoDup L -> seg n m None L None ->
  seg (upd n l (hdo L None)) (match hdo L None with Some h => upd (upd m l None) h (Some l) | None => upd m l None end) None (l :: L) None.
Proof.
  intros NI ND S. cbn [seg]. rewrite upd_same. destruct L as [|h L]; cbn [hdo].
  - rewrite upd_same. simpl. auto.
  - split; [rewrite upd_other by (simpl in NI; intros ->; tauto); apply upd_same|]. split; auto.
    inversion ND; subst. apply seg_start with (p := None); auto.
    eapply seg_ext; [|exact S]. intros x Hx. split; rewrite upd_other; auto; intros ->; auto.
Qed.

Lemma split_in l (L : list line) : In l L -> exists A B, L = A ++ l :: B.
Proof. apply in_split. Qed.

Lemma rep_extract ps V I l : rep ps V I -> In l (V ++ I) ->
  seg (nx (extract ps l)) (pv (extract ps l)) None (rm l V) None /\
  seg (nx (extract ps l)) (pv (extract ps l)) None (rm l I) None.
Proof.
  intros (Ef & El & Ei & SV & SI & ND) IN.
  pose proof (nodup_app_l _ _ ND) as NV. pose proof (nodup_app_r _ _ ND) as NI.
  apply in_app_or in IN. destruct IN as [IN|IN].
  - assert (NIN : ~ In l I) by (intros H; eapply nodup_disj; eauto).
    destruct (split_in _ _ IN) as (A & B & ->). rewrite rm_mid, (rm_notin l I) by auto.
    destruct (extract_seg ps l A B NV SV) as (S1 & O). split; auto.
    eapply seg_ext; [|exact SI]. intros x Hx. destruct (O x) as [-> ->]; auto.
    intros H. eapply nodup_disj with (x := x); eauto. rewrite in_app_iff in *. simpl. tauto.
  - assert (NIN : ~ In l V) by (intros H; eapply nodup_disj; eauto).
    destruct (split_in _ _ IN) as (A & B & ->). rewrite rm_mid, (rm_notin l V) by auto.
    destruct (extract_seg ps l A B NI SI) as (S1 & O). split; auto.
    eapply seg_ext; [|exact SV]. intros x Hx. destruct (O x) as [-> ->]; auto.
    intros H. apply (nodup_disj V (A ++ l :: B) x ND Hx). rewrite in_app_iff in *. simpl. tauto.
Qed.

Lemma hd_after ps V I l : rep ps V I -> In l (V ++ I) ->
  hdo (rm l V) None = (if peq (fv ps) l then nx ps l else fv ps) /\
  lasto None (rm l V) = (if peq (lv ps) l then pv ps l else lv ps) /\
  hdo (rm l I) None = (if peq (fi ps) l then nx ps l else fi ps).
Proof.
  intros (Ef & El & Ei & SV & SI & ND) IN. rewrite Ef, El, Ei.
  pose proof (nodup_app_l _ _ ND) as NV. pose proof (nodup_app_r _ _ ND) as NI.
  apply in_app_or in IN. destruct IN as [IN|IN].
  - assert (NIN : ~ In l I) by (intros H; eapply nodup_disj; eauto).
    destruct (split_in _ _ IN) as (A & B & ->). destruct (seg_mid _ _ _ _ _ SV) as [-> ->].
    rewrite rm_mid, (rm_notin l I) by auto. rewrite (hdo_rm l A B), (lasto_rm l A B) by auto. repeat split; auto.
    destruct (peq (hdo I None) l) eqn:E; auto. apply peq_spec, hdo_in in E. destruct E as [[_ E]|E]; [discriminate|tauto].
  - assert (NIN : ~ In l V) by (intros H; eapply nodup_disj; eauto).
    destruct (split_in _ _ IN) as (A & B & ->). destruct (seg_mid _ _ _ _ _ SI) as [-> ->].
    rewrite rm_mid, (rm_notin l V) by auto. rewrite (hdo_rm l A B) by auto. repeat split; auto.
    + destruct (peq (hdo V None) l) eqn:E; auto. apply peq_spec, hdo_in in E. destruct E as [[_ E]|E]; [discriminate|tauto].
    + destruct (peq (lasto None V) l) eqn:E; auto. apply peq_spec, lasto_in in E. destruct E as [[E _]|E]; [discriminate|tauto].
Qed.

Lemma nodup_rm_app l V I : NoDup (V ++ I) -> NoDup (rm l V ++ rm l I).
Proof. intros. rewrite <- rm_app. apply nodup_rm; auto. Qed.

Lemma extract_heads' ps l : fv (extract ps l) = fv ps /\ lv (extract ps l) = lv ps /\ fi (extract ps l) = fi ps.
Proof. apply extract_heads. Qed.

(* extract only looks at the links *)
Lemma extract_links ps ps' l : nx ps = nx ps' -> pv ps = pv ps' ->
  nx (extract ps l) = nx (extract ps' l) /\ pv (extract ps l) = pv (extract ps' l).
Proof.
  intros E1 E2. unfold extract. rewrite E1, E2.
  destruct (nx ps' l) as [x|]; cbn [set_pv nx pv]; rewrite ?E1, ?E2;
    [destruct (upd (pv ps') x (pv ps' l) l); cbn [set_nx nx pv]; rewrite ?E1, ?E2; auto
    |destruct (pv ps' l); cbn [set_nx nx pv]; rewrite ?E1, ?E2; auto].
Qed.

Lemma rep_validate ps V I l : rep ps V I -> In l (V ++ I) -> rep (c_validate ps l) (l :: rm l V) (rm l I).
Proof.
  intros R IN. pose proof R as (Ef & El & Ei & SV & SI & ND).
  unfold c_validate. destruct (peq (fv ps) l) eqn:P.
  - apply peq_spec in P. rewrite P in Ef. destruct V as [|v V]; [discriminate|]. cbn [hdo] in Ef. inversion Ef; subst v.
    assert (NV := nodup_app_l _ _ ND). inversion NV; subst.
    assert (E1 : rm l (l :: V) = V) by (apply (rm_mid l [] V); auto). rewrite E1.
    assert (E2 : rm l I = I) by (apply rm_notin; intros H; eapply nodup_disj with (x := l); eauto; simpl; auto). rewrite E2.
    exact R.
  - destruct (rep_extract ps V I l R IN) as (S1 & S2). destruct (hd_after ps V I l R IN) as (H1 & H2 & H3).
    rewrite P in H1.
    set (psa := if peq (lv ps) l then set_lv ps (pv ps l) else ps).
    assert (La : nx psa = nx ps /\ pv psa = pv ps /\ fv psa = fv ps /\ fi psa = fi ps /\ lv psa = lasto None (rm l V)).
    { unfold psa. rewrite H2. destruct (peq (lv ps) l); simpl; auto. }
    destruct La as (La1 & La2 & La3 & La4 & La5).
    set (psb := if peq (fi psa) l then set_fi psa (nx psa l) else psa).
    assert (Lb : nx psb = nx ps /\ pv psb = pv ps /\ fv psb = fv ps /\ fi psb = hdo (rm l I) None /\ lv psb = lasto None (rm l V)).
    { unfold psb. rewrite H3, La4. destruct (peq (fi ps) l); simpl; rewrite ?La1, ?La2, ?La3, ?La5; auto. }
    destruct Lb as (Lb1 & Lb2 & Lb3 & Lb4 & Lb5).
    destruct (extract_links psb ps l Lb1 Lb2) as (Lc1 & Lc2). destruct (extract_heads psb l) as (Lc3 & Lc4 & Lc5).
    set (psc := extract psb l) in *. rewrite <- Lc1, <- Lc2 in S1, S2.
    assert (NIV : ~ In l (rm l V)) by (rewrite in_rm; tauto).
    assert (NII : ~ In l (rm l I)) by (rewrite in_rm; tauto).
    assert (ND' := nodup_rm_app l _ _ ND).
    assert (E : fv psc = hdo (rm l V) None) by congruence.
    pose proof (push_front (nx psc) (pv psc) (rm l V) l NIV (nodup_app_l _ _ ND') S1) as SF.
    cbn [set_nx set_pv set_fv nx pv fv lv fi]. rewrite E.
    set (m' := match hdo (rm l V) None with Some h => upd (upd (pv psc) l None) h (Some l) | None => upd (pv psc) l None end) in *.
    assert (SI' : seg (upd (nx psc) l (hdo (rm l V) None)) m' None (rm l I) None).
    { eapply seg_ext; [|exact S2]. intros x Hx. assert (x <> l) by (intros ->; auto).
      split; [rewrite upd_other; auto|]. unfold m'. destruct (rm l V) as [|h t] eqn:EV; cbn [hdo]; rewrite !upd_other; auto.
      intros ->. eapply nodup_disj with (x := h); eauto. simpl; auto. }
    assert (EL : lv psc = lasto None (rm l V)) by congruence.
    assert (EI : fi psc = hdo (rm l I) None) by congruence.
    assert (NDF : NoDup ((l :: rm l V) ++ rm l I)).
    { simpl. constructor; auto. rewrite in_app_iff. tauto. }
    unfold set_pv; cbn [fv lv fi nx pv].
    destruct (rm l V) as [|h t] eqn:EV; cbn [hdo lasto] in *; rewrite EL; cbn [lasto set_fv set_lv fv lv fi nx pv].
    + repeat split; auto; try apply SF.
    + destruct (lasto (Some h) t) eqn:EH; [|exfalso; clear -EH; revert EH; generalize h; induction t; simpl; intros; [discriminate|eauto]].
      cbn [fv lv fi nx pv]. repeat split; auto; try apply SF.
Qed.

(* A fresh line (in no list, null links) or a valid one goes to the front of
   the invalid list. *)
Lemma rep_invalidate ps V I l : rep ps V I -> In l V -> rep (c_invalidate ps l) (rm l V) (l :: I).
Proof.
  intros R INV. assert (IN : In l (V ++ I)) by (apply in_or_app; auto). pose proof R as (Ef & El & Ei & SV & SI & ND).
  assert (NIN : ~ In l I) by (intros H; eapply nodup_disj; eauto).
  destruct (rep_extract ps V I l R IN) as (S1 & S2). destruct (hd_after ps V I l R IN) as (H1 & H2 & H3).
  rewrite (rm_notin l I) in * by auto.
  unfold c_invalidate.
  set (psa := if peq (fv ps) l then set_fv ps (nx ps l) else ps).
  assert (La : nx psa = nx ps /\ pv psa = pv ps /\ fv psa = hdo (rm l V) None /\ fi psa = fi ps /\ lv psa = lv ps).
  { unfold psa. rewrite H1. destruct (peq (fv ps) l); simpl; auto. }
  destruct La as (La1 & La2 & La3 & La4 & La5).
  set (psb := if peq (lv psa) l then set_lv psa (pv psa l) else psa).
  assert (Lb : nx psb = nx ps /\ pv psb = pv ps /\ fv psb = hdo (rm l V) None /\ fi psb = fi ps /\ lv psb = lasto None (rm l V)).
  { unfold psb. rewrite H2, La5. destruct (peq (lv ps) l); simpl; rewrite ?La1, ?La2, ?La3, ?La5; auto. }
  destruct Lb as (Lb1 & Lb2 & Lb3 & Lb4 & Lb5).
  destruct (extract_links psb ps l Lb1 Lb2) as (Lc1 & Lc2). destruct (extract_heads psb l) as (Lc3 & Lc4 & Lc5).
  set (psc := extract psb l) in *. rewrite <- Lc1, <- Lc2 in S1, S2.
  assert (NIV : ~ In l (rm l V)) by (rewrite in_rm; tauto).
  assert (ND' := nodup_rm_app l _ _ ND). rewrite (rm_notin l I) in ND' by auto.
  assert (E : fi psc = hdo I None) by congruence.
  pose proof (push_front (nx psc) (pv psc) I l NIN (nodup_app_r _ _ ND) S2) as SF.
  cbn [set_nx set_pv set_fi nx pv fv lv fi]. rewrite E.
  set (m' := match hdo I None with Some h => upd (upd (pv psc) l None) h (Some l) | None => upd (pv psc) l None end) in *.
  assert (SV' : seg (upd (nx psc) l (hdo I None)) m' None (rm l V) None).
  { eapply seg_ext; [|exact S1]. intros x Hx. assert (x <> l) by (intros ->; auto).
    split; [rewrite upd_other; auto|]. unfold m'. destruct I as [|h t] eqn:EV; cbn [hdo]; rewrite !upd_other; auto.
    intros ->. eapply nodup_disj with (x := h); eauto. simpl; auto. }
  assert (NDF : NoDup (rm l V ++ l :: I)).
  { apply nodup_app_mk; [apply (nodup_app_l _ _ ND')|constructor; auto; apply (nodup_app_r _ _ ND)|].
    intros x Hx [<-|Hy]; auto. eapply nodup_disj with (x := x); eauto. }
  destruct I as [|h t]; cbn [hdo set_pv fv lv fi nx pv] in *; repeat split; cbn [set_fi fv lv fi nx pv]; auto; try apply SF; congruence.
Qed.

Lemma rep_fresh ps V I l : rep ps V I -> ~ In l (V ++ I) -> nx ps l = None -> pv ps l = None ->
  rep (c_invalidate ps l) V (l :: I).
Proof.
  intros R NIN Nl Pl. pose proof R as (Ef & El & Ei & SV & SI & ND). rewrite in_app_iff in NIN.
  assert (P1 : peq (fv ps) l = false).
  { apply peq_false. rewrite Ef. intros H. apply hdo_in in H. destruct H as [[_ H]|H]; [discriminate|tauto]. }
  assert (P2 : peq (lv ps) l = false).
  { apply peq_false. rewrite El. intros H. apply lasto_in in H. destruct H as [[H _]|H]; [discriminate|tauto]. }
  unfold c_invalidate. rewrite P1, P2.
  assert (EX : extract ps l = ps) by (unfold extract; rewrite Nl; simpl; rewrite Pl; reflexivity). rewrite EX.
  assert (NI : ~ In l I) by tauto.
  pose proof (push_front (nx ps) (pv ps) I l NI (nodup_app_r _ _ ND) SI) as SF.
  cbn [set_nx set_pv set_fi nx pv fv lv fi]. rewrite Ei.
  set (m' := match hdo I None with Some h => upd (upd (pv ps) l None) h (Some l) | None => upd (pv ps) l None end) in *.
  assert (SV' : seg (upd (nx ps) l (hdo I None)) m' None V None).
  { eapply seg_ext; [|exact SV]. intros x Hx. assert (x <> l) by (intros ->; tauto).
    split; [rewrite upd_other; auto|]. unfold m'. destruct I as [|h t] eqn:EV; cbn [hdo]; rewrite !upd_other; auto.
    intros ->. eapply nodup_disj with (x := h); eauto. simpl; auto. }
  assert (NDF : NoDup (V ++ l :: I)).
  { apply nodup_app_mk; [apply (nodup_app_l _ _ ND)|constructor; auto; apply (nodup_app_r _ _ ND)|].
    intros x Hx [<-|Hy]; [tauto|]. eapply nodup_disj with (x := x); eauto. }
  destruct I as [|h t]; cbn [hdo set_pv fv lv fi nx pv] in *; repeat split; cbn [set_fi fv lv fi nx pv]; auto; try apply SF; congruence.
Qed.

Lemma rep_remove ps V I l : rep ps V I -> In l (V ++ I) -> rep (c_remove ps l) (rm l V) (rm l I).
Proof.
  intros R IN. pose proof R as (Ef & El & Ei & SV & SI & ND).
  destruct (rep_extract ps V I l R IN) as (S1 & S2). destruct (hd_after ps V I l R IN) as (H1 & H2 & H3).
  unfold c_remove.
  set (psa := if peq (fv ps) l then set_fv ps (nx ps l) else ps).
  assert (La : nx psa = nx ps /\ pv psa = pv ps /\ fv psa = hdo (rm l V) None /\ fi psa = fi ps /\ lv psa = lv ps).
  { unfold psa. rewrite H1. destruct (peq (fv ps) l); simpl; auto. }
  destruct La as (La1 & La2 & La3 & La4 & La5).
  set (psb := if peq (lv psa) l then set_lv psa (pv psa l) else psa).
  assert (Lb : nx psb = nx ps /\ pv psb = pv ps /\ fv psb = hdo (rm l V) None /\ fi psb = fi ps /\ lv psb = lasto None (rm l V)).
  { unfold psb. rewrite H2, La5. destruct (peq (lv ps) l); simpl; rewrite ?La1, ?La2, ?La3, ?La5; auto. }
  destruct Lb as (Lb1 & Lb2 & Lb3 & Lb4 & Lb5).
  set (psd := if peq (fi psb) l then set_fi psb (nx psb l) else psb).
  assert (Ld : nx psd = nx ps /\ pv psd = pv ps /\ fv psd = hdo (rm l V) None /\ fi psd = hdo (rm l I) None /\ lv psd = lasto None (rm l V)).
  { unfold psd. rewrite H3, Lb4. destruct (peq (fi ps) l); simpl; rewrite ?Lb1, ?Lb2, ?Lb3, ?Lb5; auto. }
  destruct Ld as (Ld1 & Ld2 & Ld3 & Ld4 & Ld5).
  destruct (extract_links psd ps l Ld1 Ld2) as (Lc1 & Lc2). destruct (extract_heads psd l) as (Lc3 & Lc4 & Lc5).
  set (psc := extract psd l) in *. rewrite <- Lc1, <- Lc2 in S1, S2.
  assert (NIV : ~ In l (rm l V)) by (rewrite in_rm; tauto).
  assert (NII : ~ In l (rm l I)) by (rewrite in_rm; tauto).
  cbn [set_nx set_pv]. repeat split; cbn [fv lv fi nx pv]; try congruence.
  - eapply seg_ext; [|exact S1]. intros x Hx. split; rewrite upd_other; auto; intros ->; auto.
  - eapply seg_ext; [|exact S2]. intros x Hx. split; rewrite upd_other; auto; intros ->; auto.
  - apply nodup_rm_app; auto.
Qed.

Lemma push_back n m L b l : ~ In l (L ++ [b]) -> NoDup (L ++ [b]) -> seg n m None (L ++ [b]) None ->
  seg (upd (upd n l None) b (Some l)) (upd m l (Some b)) None ((L ++ [b]) ++ [l]) None.
Proof.
  intros NI ND S. apply seg_app. rewrite lasto_app. cbn [hdo seg].
  assert (b <> l) by (intros ->; apply NI, in_or_app; simpl; auto). split.
  - apply seg_end with (e := None); [apply NoDup_remove_2 in ND; rewrite app_nil_r in ND; auto|].
    eapply seg_ext; [|exact S]. intros x Hx. split; rewrite upd_other; auto; intros ->; auto.
  - rewrite upd_same, upd_other, upd_same by auto. auto.
Qed.

Lemma rep_deprioritize ps V I l : rep ps V I -> In l V ->
  exists ps', c_deprioritize ps l = Ok ps' /\ rep ps' (rm l V ++ [l]) I.
Proof.
  intros R INV. assert (IN : In l (V ++ I)) by (apply in_or_app; auto). pose proof R as (Ef & El & Ei & SV & SI & ND).
  assert (NIN : ~ In l I) by (intros H; eapply nodup_disj; eauto).
  unfold c_deprioritize. destruct (peq (lv ps) l) eqn:P.
  - exists ps. split; auto. apply peq_spec in P. rewrite P in El.
    destruct V as [|v V] using rev_ind; [discriminate|]. clear IHV. rewrite lasto_app in El. inversion El; subst v.
    rewrite rm_mid; [rewrite app_nil_r; auto|]. apply (nodup_app_l _ _ ND).
  - destruct (rep_extract ps V I l R IN) as (S1 & S2). destruct (hd_after ps V I l R IN) as (H1 & H2 & H3).
    rewrite (rm_notin l I) in * by auto. rewrite P in H2.
    set (psa := if peq (fv ps) l then set_fv ps (nx ps l) else ps).
    assert (La : nx psa = nx ps /\ pv psa = pv ps /\ fv psa = hdo (rm l V) None /\ fi psa = fi ps /\ lv psa = lv ps).
    { unfold psa. rewrite H1. destruct (peq (fv ps) l); simpl; auto. }
    destruct La as (La1 & La2 & La3 & La4 & La5).
    destruct (extract_links psa ps l La1 La2) as (Lc1 & Lc2). destruct (extract_heads psa l) as (Lc3 & Lc4 & Lc5).
    set (psc := extract psa l) in *. rewrite <- Lc1, <- Lc2 in S1, S2.
    assert (NIV : ~ In l (rm l V)) by (rewrite in_rm; tauto).
    assert (ND' := nodup_rm_app l _ _ ND). rewrite (rm_notin l I) in ND' by auto.
    assert (NE : rm l V <> []).
    { intros E. rewrite E in H2. simpl in H2. rewrite <- H2 in El. clear -El INV.
      destruct V as [|v V] using rev_ind; [inversion INV|]. rewrite lasto_app in El. discriminate. }
    destruct (exists_last NE) as (L & b & EL). rewrite EL in *. rewrite lasto_app in H2.
    assert (Elv : lv psc = Some b) by congruence.
    cbn [set_nx set_pv lv]. rewrite Elv. cbn [set_nx set_lv nx pv fv lv fi].
    eexists. split; [reflexivity|].
    pose proof (push_back (nx psc) (pv psc) L b l NIV (nodup_app_l _ _ ND') S1) as SB.
    assert (Hbl : b <> l) by (intros ->; apply NIV, in_or_app; simpl; auto).
    repeat split; cbn [set_nx set_pv set_lv fv lv fi nx pv].
    + rewrite Lc3, La3. destruct L; reflexivity.
    + rewrite lasto_app. reflexivity.
    + congruence.
    + exact SB.
    + eapply seg_ext; [|exact S2]. intros x Hx. assert (x <> l) by (intros ->; auto). split; rewrite !upd_other; auto.
      intros ->. eapply nodup_disj with (x := b); eauto. apply in_or_app; simpl; auto.
    + rewrite <- app_assoc. apply nodup_app_mk.
      * apply (nodup_app_l _ _ ND').
      * simpl. constructor; auto. apply (nodup_app_r _ _ ND).
      * intros x Hx [<-|H]; auto. apply (nodup_disj _ _ x ND' Hx H).
Qed.
