From Coq Require Import ZArith List Lia Bool Sorted.
From Verif Require Import Lib.Base Lib.Lists Lib.SMap Blob.Model Blob.Spec Blob.Proofs Erode.Model.
Import ListNotations.
Local Open Scope Z_scope.

(* stored segments are not empty and at least one free column apart *)
Definition sep (a b : Z * Z) : Prop := fst a + 1 < snd b.
Definition emap_ok (m : emap) : Prop := StronglySorted sep m /\ forall e s, In (e, s) m -> s <= e.
Definition ecov (m : emap) (x : Z) : Prop := exists e s, In (e, s) m /\ s <= x <= e.
Definition touches (o : Z * Z) (s e : Z) : Prop := s - 1 <= fst o /\ snd o <= e + 1.

Lemma emap_ok_keys m : emap_ok m -> keys_sorted m.
Proof.
  intros (S & L). unfold keys_sorted. induction S as [|a l S IH F]; constructor.
  - apply IH. intros e s H. apply L. right; exact H.
  - rewrite Forall_forall in *. intros (e, s) H. specialize (F _ H). specialize (L e s (or_intror H)). unfold sep, klt in *. cbn in *. lia.
Qed.
Lemma emap_two m a b : emap_ok m -> In a m -> In b m -> a <> b -> fst a + 1 < snd b \/ fst b + 1 < snd a.
Proof. intros (S & _) A B N. destruct (sorted_two sep m a b S A B) as [E | [H | H]]; [ congruence | left; exact H | right; exact H ]. Qed.
Lemma emap_key m a b : emap_ok m -> In a m -> In b m -> fst a = fst b -> a = b.
Proof.
  intros O A B E. destruct O as (S & L). destruct (sorted_two sep m a b S A B) as [X | [H | H]]; [ exact X | | ];
    destruct a as (ea, sa), b as (eb, sb); pose proof (L _ _ A); pose proof (L _ _ B); unfold sep in H; cbn in *; lia.
Qed.
Lemma emap_sub m f : emap_ok m -> emap_ok (filter f m).
Proof.
  intros (S & L). split; [ apply sorted_filter, S | ]. intros e s H. apply filter_In in H. apply L, H.
Qed.
Lemma erase_in k (m : emap) a : In a (erase k m) <-> In a m /\ fst a <> k.
Proof. unfold erase. rewrite filter_In, negb_true_iff, Z.eqb_neq. tauto. Qed.

(* the entries that are visited, and those that are not *)
Lemma upto_in e (l : emap) a : In a (upto e l) -> In a l.
Proof.
  induction l as [|x t IH]; cbn [upto]; [ auto | ]. destruct (e <=? fst x); intros H.
  - destruct H as [H | []]; left; exact H.
  - destruct H as [H | H]; [ left; exact H | right; apply IH, H ].
Qed.
Lemma upto_rest e (l : emap) a : emap_ok l -> In a l -> ~ In a (upto e l) -> e + 1 < snd a.
Proof.
  intros (S & L). induction S as [|x t S IH F]; cbn [upto]; intros A N; [ destruct A | ].
  rewrite Forall_forall in F. destruct (e <=? fst x) eqn:Q.
  - apply Z.leb_le in Q. destruct A as [A | A]; [ exfalso; apply N; left; exact A | ]. specialize (F _ A). unfold sep in F. lia.
  - destruct A as [A | A]; [ exfalso; apply N; left; exact A | ]. apply IH; [ | exact A | ].
    + intros e0 s0 H. apply L. right; exact H.
    + intros H. apply N. right; exact H.
Qed.

Lemma scan_ok s0 e0 m0 : s0 <= e0 -> emap_ok m0 -> forall es m s e,
  emap_ok m -> s <= e -> (forall a, In a m -> In a m0) -> NoDup (map fst es) ->
  (forall a, In a es -> In a m) ->
  (forall a, In a m -> ~ In a es -> ~ touches a s e) ->
  (forall x, ecov m x \/ s <= x <= e <-> ecov m0 x \/ s0 <= x <= e0) ->
  exists m' s' e' skip, scan es m s e = Ok (m', s', e', skip) /\ emap_ok m' /\ s' <= e' /\
    (if (skip : bool) then forall x, ecov m' x <-> ecov m0 x \/ s0 <= x <= e0
     else (forall a, In a m' -> ~ touches a s' e') /\ forall x, ecov m' x \/ s' <= x <= e' <-> ecov m0 x \/ s0 <= x <= e0).
Proof.
  intros Le0 O0. induction es as [|(oe, os) es IH]; intros m s e O Le Sub Nd Es Nt Cv; cbn [scan].
  - exists m, s, e, false. split; [ reflexivity | ]. split; [ exact O | ]. split; [ exact Le | ]. split; [ | exact Cv ].
    intros a A. apply Nt; [ exact A | intros [] ].
  - cbn [map] in Nd. inversion Nd as [|? ? Nin Nd']; subst.
    pose proof (Es _ (or_introl eq_refl)) as Im. assert (Lo : os <= oe) by (apply (proj2 O), Im).
    (* removing the entry and replacing the segment by the hull *)
    assert (Step : forall s1 e1, touches (oe, os) s e -> s1 = Z.min s os -> e1 = Z.max e oe ->
      exists m' s' e' skip, scan es (erase oe m) s1 e1 = Ok (m', s', e', skip) /\ emap_ok m' /\ s' <= e' /\
      (if (skip : bool) then forall x, ecov m' x <-> ecov m0 x \/ s0 <= x <= e0
       else (forall a, In a m' -> ~ touches a s' e') /\ forall x, ecov m' x \/ s' <= x <= e' <-> ecov m0 x \/ s0 <= x <= e0)).
    { intros s1 e1 T E1 E2. apply IH.
      - apply emap_sub, O.
      - lia.
      - intros a A. apply erase_in in A. apply Sub, A.
      - exact Nd'.
      - intros a A. apply erase_in. split; [ apply Es; right; exact A | ]. intros E. apply Nin. rewrite <- E. apply in_map, A.
      - intros a A Na T1. apply erase_in in A. destruct A as (A & Ne).
        assert (Nta : ~ touches a s e).
        { apply Nt; [ exact A | ]. intros [H | H]; [ subst a; apply Ne; reflexivity | contradiction ]. }
        destruct (emap_two m a (oe, os) O A Im) as [H | H]; [ intros H; subst a; apply Ne; reflexivity | | ];
          destruct a as (ea, sa); pose proof (proj2 O _ _ A); unfold touches in *; cbn [fst snd] in *; lia.
      - intros x. rewrite <- Cv. split.
        + intros [(e2 & s2 & H & L) | L].
          * left. apply erase_in in H. exists e2, s2. split; [ apply H | exact L ].
          * destruct (Z_le_gt_dec s x); [ destruct (Z_le_gt_dec x e); [ right; lia | ] | ];
              left; exists oe, os; (split; [ exact Im | unfold touches in T; cbn [fst snd] in T; lia ]).
        + intros [(e2 & s2 & H & L) | L]; [ | right; lia ].
          destruct (Z.eq_dec e2 oe) as [E | E].
          * assert ((e2, s2) = (oe, os)) as Eq by (apply (emap_key m _ _ O H Im); exact E). injection Eq as -> ->. right. lia.
          * left. exists e2, s2. split; [ apply erase_in; split; [ exact H | exact E ] | exact L ]. }
    destruct ((oe <? s - 1) || (e + 1 <? os)) eqn:Q1.
    { apply orb_prop in Q1. apply IH; auto.
      - intros a A. apply Es. right; exact A.
      - intros a A N. destruct (Z.eq_dec (fst a) oe) as [E | E].
        + assert (a = (oe, os)) by (apply (emap_key m _ _ O A Im); exact E). subst a. unfold touches. cbn [fst snd].
          destruct Q1 as [Q1 | Q1]; apply Z.ltb_lt in Q1; lia.
        + apply Nt; [ exact A | ]. intros [H | H]; [ subst a; apply E; reflexivity | contradiction ]. }
    apply orb_false_iff in Q1. destruct Q1 as (Q1 & Q1'). apply Z.ltb_ge in Q1. apply Z.ltb_ge in Q1'.
    destruct ((os <=? s) && (e <=? oe)) eqn:Q2.
    { apply andb_prop in Q2. destruct Q2 as (Q2 & Q2'). apply Z.leb_le in Q2. apply Z.leb_le in Q2'.
      exists m, s, e, true. split; [ reflexivity | ]. split; [ exact O | ]. split; [ exact Le | ]. intros x. rewrite <- Cv. split; [ auto | ].
      intros [H | H]; [ exact H | ]. exists oe, os. split; [ exact Im | lia ]. }
    apply andb_false_iff in Q2.
    destruct ((s <=? os) && (oe <=? e)) eqn:Q3.
    { apply andb_prop in Q3. destruct Q3 as (Q3 & Q3'). apply Z.leb_le in Q3. apply Z.leb_le in Q3'.
      apply Step; [ unfold touches; cbn; lia | lia | lia ]. }
    apply andb_false_iff in Q3.
    assert (C : ~ (os <= s /\ e <= oe) /\ ~ (s <= os /\ oe <= e)).
    { split; [ destruct Q2 as [Q | Q] | destruct Q3 as [Q | Q] ]; apply Z.leb_gt in Q; lia. }
    destruct (((s - 1 <=? oe) && (oe <=? e + 1)) || ((s - 1 <=? os) && (os <=? e + 1))) eqn:Q4.
    { apply Step.
      - unfold touches; cbn; lia.
      - destruct (os <? s) eqn:Q; [ apply Z.ltb_lt in Q | apply Z.ltb_ge in Q ]; lia.
      - destruct (e <? oe) eqn:Q; [ apply Z.ltb_lt in Q | apply Z.ltb_ge in Q ]; lia. }
    exfalso. apply orb_false_iff in Q4. destruct Q4 as (Q4 & Q5). apply andb_false_iff in Q4. apply andb_false_iff in Q5.
    rewrite !Z.leb_gt in Q4, Q5. lia.
Qed.

Lemma insert_ok m s e : emap_ok m -> s <= e -> (forall a, In a m -> ~ touches a s e) ->
  emap_ok (insert e s m) /\ forall x, ecov (insert e s m) x <-> ecov m x \/ s <= x <= e.
Proof.
  intros O Le N.
  assert (E : insert e s m = assign e s m).
  { unfold insert. destruct (from e m) as [|(k, v) t] eqn:F; [ reflexivity | ]. destruct (k =? e) eqn:Q; [ | reflexivity ].
    apply Z.eqb_eq in Q. subst k. exfalso. assert (I : In (e, v) (from e m)) by (rewrite F; left; reflexivity). apply in_from in I. destruct I as (I & _).
    apply (N _ I). pose proof (proj2 O _ _ I). unfold touches. cbn. lia. }
  rewrite E. unfold assign.
  assert (Bf : forall a, In a (before e m) -> In a m /\ fst a + 1 < s).
  { intros a A. apply in_before in A. destruct A as (A & L). split; [ exact A | ]. specialize (N _ A). destruct a as (ea, sa).
    pose proof (proj2 O _ _ A). unfold touches in N. cbn in *. lia. }
  assert (Af : forall a, In a (from (e + 1) m) -> In a m /\ e + 1 < snd a).
  { intros a A. apply in_from in A. destruct A as (A & L). split; [ exact A | ]. specialize (N _ A). destruct a as (ea, sa).
    pose proof (proj2 O _ _ A). unfold touches in N. cbn in *. lia. }
  split.
  - split.
    + apply sorted_app. split; [ apply (sorted_filter _ _ _ (proj1 O)) | ]. split.
      * constructor; [ apply (sorted_filter _ _ _ (proj1 O)) | ]. apply Forall_forall. intros a A. apply Af in A. unfold sep. cbn. lia.
      * intros a b A B. apply Bf in A as A'. unfold sep. destruct B as [B | B]; [ subst b; cbn; lia | ].
        apply Af in B. destruct B as (_ & B). lia.
    + intros e1 s1 H. apply in_app_or in H. destruct H as [H | [H | H]].
      * apply Bf in H. apply (proj2 O), H.
      * injection H as <- <-. exact Le.
      * apply Af in H. apply (proj2 O), H.
  - intros x. split.
    + intros (e1 & s1 & H & L). apply in_app_or in H. destruct H as [H | [H | H]].
      * left. exists e1, s1. split; [ apply Bf, H | exact L ].
      * injection H as <- <-. right. exact L.
      * left. exists e1, s1. split; [ apply Af, H | exact L ].
    + intros [(e1 & s1 & H & L) | L].
      * exists e1, s1. split; [ | exact L ]. apply in_or_app. destruct (Z_lt_ge_dec e1 e) as [X | X].
        -- left. apply in_before. auto.
        -- right. right. apply in_from. split; [ exact H | ]. cbn. destruct (Z.eq_dec e1 e) as [Y | Y]; [ | lia ].
           subst e1. exfalso. apply (N _ H). unfold touches. cbn. lia.
      * exists e, s. split; [ apply in_or_app; right; left; reflexivity | exact L ].
Qed.

Lemma keys_nodup (m : emap) : keys_sorted m -> NoDup (map fst m).
Proof.
  induction 1 as [|a l S IH F]; cbn [map]; constructor; [ | exact IH ].
  intros H. apply in_map_iff in H. destruct H as (b & E & B). rewrite Forall_forall in F. specialize (F _ B). unfold klt in F. lia.
Qed.
Lemma upto_sorted e (l : emap) : keys_sorted l -> keys_sorted (upto e l).
Proof.
  induction 1 as [|a l S IH F]; cbn [upto]; [ constructor | ]. destruct (e <=? fst a); [ repeat constructor | ].
  constructor; [ exact IH | ]. apply Forall_forall. intros b B. rewrite Forall_forall in F. apply F, (upto_in e), B.
Qed.

Lemma add_seg_ok m s e : emap_ok m -> s <= e ->
  exists m', add_seg m s e = Ok m' /\ emap_ok m' /\ forall x, ecov m' x <-> ecov m x \/ s <= x <= e.
Proof.
  intros O Le. unfold add_seg.
  destruct (scan_ok s e m Le O (upto e (from (s - 1) m)) m s e) as (m' & s' & e' & skip & E & O' & Le' & H); auto.
  - apply keys_nodup, upto_sorted. unfold keys_sorted, from. apply sorted_filter, emap_ok_keys, O.
  - intros a A. apply upto_in, in_from in A. apply A.
  - intros a A N (T1 & T2). assert (In a (from (s - 1) m)) as F by (apply in_from; auto).
    pose proof (upto_rest e (from (s - 1) m) a (emap_sub m _ O) F N). lia.
  - intros x. reflexivity.
  - rewrite E. cbn [bind]. destruct skip.
    + exists m'. auto.
    + destruct H as (N & C). destruct (insert_ok m' s' e' O' Le' N) as (I1 & I2). exists (insert e' s' m'). split; [ reflexivity | ].
      split; [ exact I1 | ]. intros x. rewrite I2. apply C.
Qed.

Lemma add_segs_ok x0 r : (forall s, In s r -> fst s < snd s) -> forall m, emap_ok m ->
  exists m', add_segs m x0 r = Ok m' /\ emap_ok m' /\ forall x, ecov m' x <-> ecov m x \/ covers r (x - x0).
Proof.
  induction r as [|(a, z) t IH]; intros Ne m O; cbn [add_segs].
  - exists m. split; [ reflexivity | ]. split; [ exact O | ]. intros x. split; [ auto | ]. intros [H | H]; [ exact H | destruct (covers_nil _ H) ].
  - pose proof (Ne _ (or_introl eq_refl)) as L. cbn in L.
    destruct (add_seg_ok m (a + x0) (z + x0 - 1) O ltac:(lia)) as (m1 & E1 & O1 & C1). rewrite E1. cbn [bind].
    destruct (IH (fun s H => Ne s (or_intror H)) m1 O1) as (m2 & E2 & O2 & C2). exists m2. split; [ exact E2 | ]. split; [ exact O2 | ].
    intros x. rewrite C2, C1, covers_cons. cbn [fst snd].
    split; [ intros [[H | H] | H]; auto; right; left; lia | intros [H | [H | H]]; auto; left; right; lia ].
Qed.

(* reading one row *)
Lemma from_first i (m : emap) : emap_ok m ->
  match from i m with
  | [] => ~ ecov m i
  | (_, s) :: _ => if i <? s then ~ ecov m i else ecov m i
  end.
Proof.
  intros O. destruct (from i m) as [|(e, s) t] eqn:F.
  - intros (e & s & H & L). assert (I : In (e, s) (from i m)) by (apply in_from; split; [ exact H | cbn; lia ]). rewrite F in I. destruct I.
  - assert (I : In (e, s) (from i m)) by (rewrite F; left; reflexivity). apply in_from in I. destruct I as (I & Le). cbn in Le.
    destruct (i <? s) eqn:Q; [ apply Z.ltb_lt in Q | apply Z.ltb_ge in Q ].
    + intros (e1 & s1 & H & L). assert (I1 : In (e1, s1) (from i m)) by (apply in_from; split; [ exact H | cbn; lia ]). rewrite F in I1.
      destruct I1 as [I1 | I1]; [ injection I1 as <- <-; lia | ].
      assert (Sf : StronglySorted sep (from i m)) by (apply sorted_filter, O). rewrite F in Sf. inversion Sf as [|? ? _ Fa]; subst.
      rewrite Forall_forall in Fa. specialize (Fa _ I1). unfold sep in Fa. cbn in Fa. pose proof (proj2 O _ _ I). lia.
    + exists e, s. split; [ exact I | lia ].
Qed.
