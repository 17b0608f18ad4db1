(* Lemmas for C25. *)
From Coq Require Import ZArith List Lia Bool Sorting.Sorted.
From Verif Require Import Lib.Base Lib.Img Lib.SMap Sparse.Model Sparse.Spec.
Import ListNotations.
Local Open Scope Z_scope.

Section P.
Context {A : Type}.
Implicit Types (m : @rowmap A) (d : list A).

Definition seg_has (e : Z) d (i : Z) (v : A) : Prop :=
  e - zlen d <= i < e /\ nth_error d (Z.to_nat (i - (e - zlen d))) = Some v.
Definition covers m (i : Z) (v : A) : Prop := exists e d, In (e, d) m /\ seg_has e d i v.
Definition gap (a b : Z * list A) : Prop := fst a <= fst b - zlen (snd b).
Definition clean m : Prop := StronglySorted gap m /\ Forall (fun s => snd s <> []) m.

Lemma zlen_pos d : d <> [] -> 1 <= zlen d.
Proof. destruct d; [congruence|]. unfold zlen. simpl length. lia. Qed.
Lemma zlen_app d d' : zlen (d ++ d') = zlen d + zlen d'.
Proof. unfold zlen. rewrite app_length. lia. Qed.

Lemma clean_sorted m : clean m -> keys_sorted m.
Proof.
  intros [S F]. induction m as [|a m IH]; [constructor|]. inversion S as [|? ? S' G]; inversion F as [|? ? F1 F2]; subst.
  constructor; [apply IH; auto|]. rewrite Forall_forall in *. intros b Ib. specialize (G b Ib). specialize (F2 b Ib).
  unfold gap, klt in *. pose proof (zlen_pos _ F2). lia.
Qed.

Lemma seg_has_some e d i : e - zlen d <= i < e -> exists v, seg_has e d i v.
Proof.
  intros H. destruct (nth_error d (Z.to_nat (i - (e - zlen d)))) eqn:E; [eexists; split; eauto|].
  apply nth_error_None in E. unfold zlen in *. lia.
Qed.

(* the segment that may contain column i *)
Lemma read_clean m i : clean m -> 
  (forall v, covers m i v -> exists k d r, from (i + 1) m = (k, d) :: r /\ seg_has k d i v) /\
  (forall k d r, from (i + 1) m = (k, d) :: r -> k - zlen d <= i -> exists v, seg_has k d i v /\ covers m i v).
Proof.
  intros C. pose proof (clean_sorted m C) as KS. destruct C as [S F]. split.
  - intros v (e & d & I & H). pose proof H as [B _].
    destruct (from (i + 1) m) as [|[k d'] r] eqn:E.
    + exfalso. assert (X : In (e, d) (from (i + 1) m)) by (apply in_from; split; auto; simpl; lia). rewrite E in X. contradiction.
    + exists k, d', r. split; auto.
      assert (X : In (e, d) (from (i + 1) m)) by (apply in_from; split; auto; simpl; lia). rewrite E in X. destruct X as [X|X]; [now inversion X|].
      exfalso. assert (SF : StronglySorted gap (from (i + 1) m)) by (apply sorted_filter; auto). rewrite E in SF.
      inversion SF as [|? ? _ G]; subst. rewrite Forall_forall in G. specialize (G _ X). unfold gap in G. simpl in G.
      assert (Y : In (k, d') (from (i + 1) m)) by (rewrite E; left; auto). apply in_from in Y. simpl in Y. lia.
  - intros k d r E L. assert (Y : In (k, d) (from (i + 1) m)) by (rewrite E; left; auto). apply in_from in Y. simpl in Y.
    destruct (seg_has_some k d i) as (v & H); [lia|]. exists v. split; auto. exists k, d. split; [apply Y|auto].
Qed.

Lemma seg_has_app e d d' i v : (e - zlen d' <= i < e -> False) \/ True ->
  seg_has e (d ++ d') i v <-> seg_has (e - zlen d') d i v \/ seg_has e d' i v.
Proof.
  intros _. unfold seg_has. rewrite zlen_app. split.
  - intros [B N]. destruct (Z_lt_le_dec i (e - zlen d')) as [L|L].
    + left. split; [lia|]. rewrite nth_error_app1 in N by (unfold zlen in *; lia). rewrite <- N. f_equal. lia.
    + right. split; [lia|]. rewrite nth_error_app2 in N by (unfold zlen in *; lia). rewrite <- N. f_equal. unfold zlen in *. lia.
  - assert (P1 : 0 <= zlen d) by (unfold zlen; lia). assert (P2 : 0 <= zlen d') by (unfold zlen; lia). intros [[B N]|[B N]].
    + split; [lia|]. rewrite nth_error_app1 by (unfold zlen in *; lia). rewrite <- N. f_equal. lia.
    + split; [lia|]. rewrite nth_error_app2 by (unfold zlen in *; lia). rewrite <- N. f_equal. unfold zlen in *. lia.
Qed.

Lemma clean_app m m' : clean (m ++ m') <-> clean m /\ clean m' /\ (forall a b, In a m -> In b m' -> gap a b).
Proof. unfold clean. rewrite sorted_app, Forall_app. tauto. Qed.

Lemma covers_app m m' i v : covers (m ++ m') i v <-> covers m i v \/ covers m' i v.
Proof.
  unfold covers. split.
  - intros (e & d & I & H). apply in_app_or in I. destruct I; [left|right]; eauto.
  - intros [(e & d & I & H)|(e & d & I & H)]; exists e, d; split; auto; apply in_or_app; auto.
Qed.
Lemma covers_cons e d m i v : covers ((e, d) :: m) i v <-> seg_has e d i v \/ covers m i v.
Proof.
  unfold covers. split.
  - intros (e' & d' & [I|I] & H); [inversion I; subst; auto|right; eauto].
  - intros [H|(e' & d' & I & H)]; [exists e, d; split; [left|]; auto|exists e', d'; split; [right|]; auto].
Qed.

(* absorbing a segment that overlaps nothing *)
Lemma absorb_seg_free m e d : clean m -> d <> [] -> (forall i v, e - zlen d <= i < e -> ~ covers m i v) ->
  exists m', absorb_seg m e d = Ok m' /\ clean m' /\ forall i v, covers m' i v <-> covers m i v \/ seg_has e d i v.
Proof.
  intros C ND FREE. pose proof (clean_sorted m C) as KS. pose proof (zlen_pos d ND) as LD.
  assert (FREE' : forall k dd, In (k, dd) m -> k <= e - zlen d \/ e <= k - zlen dd).
  { intros k dd I. destruct (Z_le_gt_dec k (e - zlen d)); [auto|]. destruct (Z_le_gt_dec e (k - zlen dd)); [auto|]. exfalso.
    destruct C as [_ F]. rewrite Forall_forall in F. pose proof (zlen_pos dd (F _ I)).
    set (i := Z.max (e - zlen d) (k - zlen dd)).
    destruct (seg_has_some k dd i) as (v & H'); [lia|]. apply (FREE i v); [lia|]. exists k, dd. auto. }
  pose proof (before_from e m KS) as SPLIT.
  assert (CB : clean (before e m) /\ clean (from e m) /\ (forall a b, In a (before e m) -> In b (from e m) -> gap a b)) by (apply clean_app; rewrite <- SPLIT; auto).
  destruct CB as (CB & CF & CG).
  assert (CM : forall i v, covers m i v <-> covers (before e m) i v \/ covers (from e m) i v) by (intros; rewrite <- covers_app, <- SPLIT; tauto).
  assert (NEW : (forall k dd, In (k, dd) m -> k <> e) -> assign e d m = before e m ++ (e, d) :: from e m).
  { intros NE. unfold assign. f_equal. f_equal. unfold from. apply filter_ext_in. intros [k dd] I. simpl. specialize (NE k dd I).
    destruct (Z.leb_spec (e + 1) k), (Z.leb_spec e k); auto; lia. }
  assert (GL : forall a, In a (before e m) -> gap a (e, d)).
  { intros [k dd] I. apply in_before in I. unfold gap. simpl in *. destruct I as [I L]. destruct (FREE' k dd I); [lia|].
    destruct C as [_ F]. rewrite Forall_forall in F. pose proof (zlen_pos dd (F _ I)). lia. }
  assert (OKNEW : (forall k dd, In (k, dd) (from e m) -> e < k - zlen dd \/ e <= k - zlen dd) -> 
     clean (before e m ++ (e, d) :: from e m) /\ forall i v, covers (before e m ++ (e, d) :: from e m) i v <-> covers m i v \/ seg_has e d i v).
  { intros NE. split.
    - apply clean_app. split; [auto|]. split.
      + destruct CF as [S F]. split; [constructor; auto|constructor; auto]. rewrite Forall_forall. intros [k dd] I. unfold gap. simpl. destruct (NE k dd I); lia.
      + intros a b Ia [<-|Ib]; [auto|auto].
    - intros i v. rewrite covers_app, covers_cons. rewrite CM. tauto. }
  assert (RIGHT : forall k dd, In (k, dd) (from e m) -> e <= k - zlen dd).
  { intros k dd I. apply in_from in I. simpl in I. destruct I as [I L]. destruct (FREE' k dd I); [lia|auto]. }
  assert (APPEND : forall k dd r, from e m = (k, dd) :: r -> e = k - zlen dd ->
     clean (before e m ++ (k, d ++ dd) :: r) /\ forall i v, covers (before e m ++ (k, d ++ dd) :: r) i v <-> covers m i v \/ seg_has e d i v).
  { intros k dd r E Ek. rewrite E in CF, CG. destruct CF as [S F]. inversion S as [|? ? S' G]; inversion F as [|? ? F1 F2]; subst. split.
    - apply clean_app. split; [auto|]. split.
      + split; constructor; auto. destruct d; simpl; congruence.
      + intros a b Ia [<-|Ib].
        * specialize (GL a Ia). unfold gap in *. simpl in *. rewrite zlen_app. lia.
        * apply CG; auto. right; auto.
    - intros i v. rewrite covers_app, covers_cons. rewrite CM, E, covers_cons, seg_has_app by auto. tauto. }
  unfold absorb_seg. destruct (from e m) as [|[k dd] r] eqn:E.
  - exists (assign e d m). split; auto. rewrite NEW.
    + apply OKNEW. intros; auto.
    + intros k dd I ->. assert (X : In (e, dd) (from e m)) by (apply in_from; split; [auto|simpl; lia]). rewrite E in X. contradiction.
  - specialize (RIGHT k dd (or_introl eq_refl)) as RK.
    assert (NK : e <> k - zlen dd -> forall k0 dd0, In (k0, dd0) m -> k0 <> e).
    { intros NE k0 dd0 I ->. destruct (FREE' e dd0 I); [lia|]. destruct C as [_ F]. rewrite Forall_forall in F. pose proof (zlen_pos dd0 (F _ I)). lia. }
    destruct (rev (before e m)) as [|[pk pd] pr] eqn:ER.
    + destruct (Z.ltb_spec (k - zlen dd) e); [lia|]. destruct (Z.eqb_spec e (k - zlen dd)) as [EQ|NE].
      * eexists. split; [reflexivity|]. apply APPEND; auto.
      * exists (assign e d m). split; auto. rewrite NEW by (apply NK; auto). apply OKNEW. intros; right; apply RIGHT; auto.
    + assert (IP : In (pk, pd) (before e m)) by (apply in_rev; rewrite ER; left; auto).
      specialize (GL _ IP). unfold gap in GL. simpl in GL.
      destruct (Z.ltb_spec (e - zlen d) pk); [lia|]. destruct (Z.ltb_spec (k - zlen dd) e); [lia|]. cbn [orb].
      destruct (Z.eqb_spec e (k - zlen dd)) as [EQ|NE].
      * eexists. split; [reflexivity|]. apply APPEND; auto.
      * exists (assign e d m). split; auto. rewrite NEW by (apply NK; auto). apply OKNEW. intros; right; apply RIGHT; auto.
Qed.

(* absorbing a segment that overlaps stored data, with data at or beyond its end *)
Lemma absorb_seg_overlap m e d i v : clean m -> d <> [] -> e - zlen d <= i < e -> covers m i v ->
  (exists j w, e <= j + 1 /\ covers m j w) -> absorb_seg m e d = Throw NoImplErr.
Proof.
  intros C ND B (k0 & d0 & I0 & H0) (j & w & LJ & (k1 & d1 & I1 & H1)).
  pose proof (clean_sorted m C) as KS. unfold absorb_seg.
  destruct (from e m) as [|[k dd] r] eqn:E.
  { exfalso. assert (X : In (k1, d1) (from e m)) by (apply in_from; destruct H1; split; [auto|simpl; lia]). rewrite E in X. contradiction. }
  pose proof (before_from e m KS) as SPLIT.
  assert (IN : In (k0, d0) (before e m) \/ In (k0, d0) (from e m)) by (rewrite SPLIT in I0; apply in_app_or; auto).
  assert (CF : StronglySorted gap ((k, dd) :: r)) by (rewrite <- E; apply sorted_filter, C).
  assert (RT : In (k0, d0) (from e m) -> k - zlen dd < e).
  { intros X. rewrite E in X. destruct X as [X|X]; [inversion X; subst; destruct H0; lia|].
    inversion CF as [|? ? _ G]; subst. rewrite Forall_forall in G. specialize (G _ X). unfold gap in G. simpl in G.
    assert (Y : In (k, dd) (from e m)) by (rewrite E; left; auto). apply in_from in Y. simpl in Y. destruct H0. lia. }
  destruct (rev (before e m)) as [|[pk pd] pr] eqn:ER.
  - destruct IN as [IN|IN]; [apply in_rev in IN; rewrite ER in IN; contradiction|].
    destruct (Z.ltb_spec (k - zlen dd) e); auto. specialize (RT IN). lia.
  - destruct IN as [IN|IN].
    + assert (k0 <= pk).
      { apply in_rev in IN. rewrite ER in IN. destruct IN as [IN|IN]; [inversion IN; lia|].
        assert (IB : In (pk, pd) (before e m)) by (apply in_rev; rewrite ER; left; auto).
        assert (SB : keys_sorted (rev pr ++ [(pk, pd)])).
        { assert (Q : before e m = rev pr ++ [(pk, pd)]) by (rewrite <- (rev_involutive (before e m)), ER; reflexivity).
          rewrite <- Q. apply sorted_filter; auto. }
        apply sorted_app in SB. destruct SB as (_ & _ & SB). specialize (SB (k0, d0) (pk, pd)). unfold klt in SB. simpl in SB.
        assert (k0 < pk); [|lia]. apply SB; [apply -> in_rev; auto|auto]. }
      destruct H0. destruct (Z.ltb_spec (e - zlen d) pk); auto. lia.
    + specialize (RT IN). destruct (Z.ltb_spec (k - zlen dd) e); [|lia]. rewrite orb_true_r. auto.
Qed.

(* runs of a row *)
Definition row_shows (row : Z -> option A) (n : Z) (i : Z) (v : A) : Prop := 0 <= i < n /\ row i = Some v.
(* consecutive runs are separated *)
Definition apart (a b : Z * list A) : Prop := fst a < fst b - zlen (snd b).

Definition rinv (row : Z -> option A) (c : Z) (s : run) : Prop :=
  (building s = false -> temp s = []) /\ (building s = true -> temp s <> []) /\
  StronglySorted apart (segs s) /\ Forall (fun q => snd q <> [] /\ fst q - zlen (snd q) >= 0 /\ fst q <= c) (segs s) /\
  (building s = true -> Forall (fun q => fst q < c - zlen (temp s)) (segs s)) /\ (building s = false -> Forall (fun q => fst q < c) (segs s)) /\
  0 <= c - zlen (temp s) /\
  forall i v, row_shows row c i v <-> covers (segs s) i v \/ seg_has c (temp s) i v.

Lemma seg_nil e i v : ~ seg_has e [] i v.
Proof. intros [H _]. unfold zlen in H. simpl in H. lia. Qed.
Lemma seg_one e w i v : seg_has e [w] i v <-> i = e - 1 /\ v = w.
Proof.
  unfold seg_has, zlen. simpl length. split.
  - intros [B N]. assert (i = e - 1) by lia. subst. replace (e - 1 - (e - Z.of_nat 1)) with 0 in N by lia. simpl in N. inversion N. auto.
  - intros [-> ->]. split; [lia|]. replace (e - 1 - (e - Z.of_nat 1)) with 0 by lia. reflexivity.
Qed.

Lemma rinv_step row c s : 0 <= c -> rinv row c s -> rinv row (c + 1) (run_step row c s).
Proof.
  intros HC (I1 & I2 & I3 & I4 & I5 & I6 & I7 & I8). unfold run_step, rinv.
  assert (SH : forall i v, row_shows row (c + 1) i v <-> row_shows row c i v \/ i = c /\ row c = Some v).
  { intros i v. unfold row_shows. split.
    - intros [B N]. destruct (Z.eq_dec i c) as [->|]; [right; auto|left; split; [lia|auto]].
    - intros [[B N]|[-> N]]; split; auto; lia. }
  assert (W : Forall (fun q => snd q <> [] /\ fst q - zlen (snd q) >= 0 /\ fst q <= c + 1) (segs s)).
  { rewrite Forall_forall in *. intros q Iq. destruct (I4 q Iq) as (a & b & e). repeat split; auto; lia. }
  destruct (row c) as [w|] eqn:ER.
  - assert (ZL : zlen (temp s ++ [w]) = zlen (temp s) + 1) by (rewrite zlen_app; reflexivity).
    split; [discriminate|]. split; [intros _; destruct (temp s); simpl; congruence|]. split; [auto|]. split; [exact W|].
    cbn [building temp segs]. split; [|split; [discriminate|split; [lia|]]].
    + intros _. rewrite Forall_forall in *. intros q Iq. rewrite ZL. destruct (building s) eqn:Eb.
      * specialize (I5 eq_refl q Iq). lia.
      * specialize (I6 eq_refl q Iq). rewrite (I1 eq_refl). unfold zlen. simpl length. lia.
    + intros i v. rewrite SH, I8, seg_has_app by auto. replace (c + 1 - zlen [w]) with c by (unfold zlen; simpl length; lia). rewrite seg_one.
      split; [intros [[K|K]|[-> K]]; auto|intros [K|[K|[-> ->]]]]; auto.
      * inversion K. right. right. split; [lia|auto].
      * right. split; [lia|auto].
  - destruct (building s) eqn:Eb.
    + cbn [building temp segs].
      assert (LT : 1 <= zlen (temp s)) by (apply zlen_pos; auto).
      split; [auto|]. split; [discriminate|]. split.
      * apply sorted_app. split; [auto|]. split; [repeat constructor|]. intros a b Ia [<-|[]]. unfold apart. simpl.
        specialize (I5 eq_refl). rewrite Forall_forall in I5. apply I5; auto.
      * split; [apply Forall_app; split; [exact W|constructor; [|constructor]]; simpl; repeat split; auto; lia|].
        split; [discriminate|]. split.
        -- intros _. apply Forall_app; split; [|constructor; [simpl; lia|constructor]]. rewrite Forall_forall in *. intros q Iq. destruct (I4 q Iq) as (a & b & e). lia.
        -- split; [unfold zlen; simpl; lia|]. intros i v. rewrite SH, I8, covers_app, covers_cons.
           assert (N1 : ~ covers [] i v) by (intros (? & ? & [] & _)). pose proof (seg_nil (c + 1) i v). split; [intros [K|[_ K]]; [tauto|discriminate]|tauto].
    + split; [intros _; auto|]. split; [intros X; rewrite X in Eb; discriminate|]. split; [auto|]. split; [exact W|]. split; [intros X; rewrite X in Eb; discriminate|]. split.
      * intros _. rewrite Forall_forall in *. intros q Iq. specialize (I6 eq_refl q Iq). lia.
      * rewrite (I1 eq_refl). split; [unfold zlen; simpl; lia|]. intros i v. rewrite SH, I8, (I1 eq_refl).
        pose proof (seg_nil (c + 1) i v). pose proof (seg_nil c i v). split; [intros [K|[_ K]]; [tauto|discriminate]|tauto].
Qed.

Lemma runs_spec row n : 0 <= n ->
  Forall (fun q => snd q <> []) (runs row n) /\ StronglySorted apart (runs row n) /\
  forall i v, row_shows row n i v <-> covers (runs row n) i v.
Proof.
  intros HN. unfold runs. set (s := ploop (Z.to_nat n) 0 (run_step row) (Run false [] [])).
  assert (R : rinv row n s).
  { replace n with (0 + Z.of_nat (Z.to_nat n)) at 1 by lia. apply (ploop_inv (fun c s => 0 <= c /\ rinv row c s)).
    - split; [lia|]. unfold rinv. cbn [building temp segs]. split; [auto|]. split; [discriminate|]. split; [constructor|]. split; [constructor|].
      split; [discriminate|]. split; [constructor|]. split; [unfold zlen; simpl; lia|]. intros i v. split.
      + intros [B _]. lia.
      + intros [(? & ? & [] & _)|H]. exfalso. eapply seg_nil; eauto.
    - intros k t Hk [P Q]. split; [lia|]. apply rinv_step; auto. }
  destruct R as (I1 & I2 & I3 & I4 & I5 & I6 & I7 & I8).
  assert (F : Forall (fun q : Z * list A => snd q <> []) (segs s)) by (rewrite Forall_forall in *; intros q Iq; apply I4; auto).
  destruct (building s) eqn:Eb.
  - split; [apply Forall_app; split; [auto|constructor; [simpl; auto|constructor]]|]. split.
    + apply sorted_app. split; [auto|]. split; [repeat constructor|]. intros a b Ia [<-|[]]. unfold apart. simpl.
      specialize (I5 eq_refl). rewrite Forall_forall in I5. apply I5; auto.
    + intros i v. rewrite I8, covers_app, covers_cons. assert (N1 : ~ covers [] i v) by (intros (? & ? & [] & _)). tauto.
  - split; [auto|]. split; [auto|]. intros i v. rewrite I8, (I1 eq_refl). pose proof (seg_nil n i v). tauto.
Qed.
End P.
