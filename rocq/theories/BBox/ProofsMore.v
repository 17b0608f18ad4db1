(* Proofs about the remaining operations of boxes. *)
From Coq Require Import ZArith QArith Qround List Lia Bool FinFun.
From Verif Require Import Lib.Base BBox.Model BBox.Spec BBox.Proofs.
Import ListNotations.
Local Open Scope Z_scope.

Lemma expand_vec_spec n b v q : wf n b -> length v = n -> (forall i, (i < n)%nat -> 0 <= nth i v 0) ->
  exists c, expand_vec b v = Ok c /\
    (inside c q <-> exists p, inside b p /\ length p = length q /\
       forall i, (i < n)%nat -> Z.abs (nth i p 0 - nth i q 0) <= nth i v 0).
Proof.
  intros W Hv Hk. pose proof (empty_iff n b W) as E. pose proof (empty_false n b W) as N.
  pose proof W as (Hn & H1 & H2).
  unfold expand_vec. rewrite dim_check_ok by (unfold dim; lia). cbn [negb].
  destruct (empty b).
  - eexists. split; [reflexivity|]. assert (A : forall p, ~ inside b p) by (apply E; auto). split.
    + intros X. exfalso. exact (A q X).
    + intros (p & X & _). exfalso. exact (A p X).
  - eexists. split; [reflexivity|]. pose proof (proj1 N eq_refl) as N'. clear N E.
    rewrite (inside_mk n) by (auto; rewrite map2_length; lia). split.
    + intros [Hq Hi].
      exists (map2 (fun x lh => Z.max (fst lh) (Z.min x (snd lh - 1))) q (combine (bmin b) (bmax b))).
      assert (Lc : length (combine (bmin b) (bmax b)) = n) by (rewrite combine_length; lia).
      assert (Nc : forall i, (i < n)%nat -> nth i (combine (bmin b) (bmax b)) (0,0) = (nth i (bmin b) 0, nth i (bmax b) 0)).
      { intros; apply combine_nth; lia. }
      assert (Hm : length (map2 (fun x lh => Z.max (fst lh) (Z.min x (snd lh - 1))) q (combine (bmin b) (bmax b))) = n).
      { rewrite map2_length; lia. }
      split; [|split; [lia|]].
      * rewrite (inside_wf n) by auto. split; [auto|]. intros i Hin.
        rewrite (map2_nth _ 0 (0,0)) by lia. rewrite Nc by auto. simpl.
        specialize (N' i Hin). lia.
      * intros i Hin. rewrite (map2_nth _ 0 (0,0)) by lia. rewrite Nc by auto. simpl.
        specialize (N' i Hin). specialize (Hi i Hin). specialize (Hk i Hin). rewrite !(map2_nth _ 0 0) in Hi by lia. lia.
    + intros (p & I & Hl & Hw). rewrite (inside_wf n) in I by auto. destruct I as [Hp I].
      split; [lia|]. intros i Hin. rewrite !(map2_nth _ 0 0) by lia.
      specialize (I i Hin). specialize (Hw i Hin). lia.
Qed.

Lemma expand_vec_mismatch n b v : wf n b -> length v <> n -> expand_vec b v = Throw ArgumentErr.
Proof.
  intros (Hn & H1 & H2) Hv. unfold expand_vec, dim_check, dim. rewrite H1.
  destruct (Nat.eqb_spec n 0); [lia|]. destruct (Nat.eqb_spec (length v) n); [lia|]. reflexivity.
Qed.

Definition points3 (b : bbox) : list (list Z) :=
  map (fun xyz => [fst (fst xyz); snd (fst xyz); snd xyz])
    (list_prod (list_prod (zrange (nth 0 (bmin b) 0) (nth 0 (bmax b) 0)) (zrange (nth 1 (bmin b) 0) (nth 1 (bmax b) 0)))
               (zrange (nth 2 (bmin b) 0) (nth 2 (bmax b) 0))).

Lemma volume_counts b : wf 3 b ->
  exists l, NoDup l /\ (forall p, In p l <-> inside b p) /\ Z.of_nat (length l) = volume b /\
    volume b = width b * height b * depth b.
Proof.
  intros W. pose proof (empty_false 3 b W) as N. pose proof (empty_iff 3 b W) as E.
  unfold volume, width, height, depth, extent. destruct (empty b) eqn:Eb.
  - exists []. assert (A : forall p, ~ inside b p) by (apply E; auto).
    split; [constructor|]. split; [|simpl; lia]. intros p; simpl. split; [tauto|]. apply A.
  - pose proof (proj1 N eq_refl) as N'. exists (points3 b). unfold points3.
    pose proof (N' 0%nat ltac:(lia)) as N0. pose proof (N' 1%nat ltac:(lia)) as N1. pose proof (N' 2%nat ltac:(lia)) as N2.
    split; [|split].
    + apply Injective_map_NoDup.
      * intros [[x y] z] [[x' y'] z'] H; simpl in H; congruence.
      * apply nodup_list_prod; [apply nodup_list_prod|]; apply zrange_nodup.
    + intros p. rewrite in_map_iff, (inside_wf 3) by auto. split.
      * intros (((x,y),z) & <- & I). rewrite !in_prod_iff, !in_zrange in I. simpl.
        split; auto. intros [|[|[|i]]] Hi; simpl; lia.
      * intros [Hl Hi]. destruct p as [|x [|y [|z [|? ?]]]]; simpl in Hl; try lia.
        exists ((x,y),z). split; auto. rewrite !in_prod_iff, !in_zrange.
        pose proof (Hi 0%nat ltac:(lia)). pose proof (Hi 1%nat ltac:(lia)). pose proof (Hi 2%nat ltac:(lia)). simpl in *. lia.
    + rewrite map_length, !prod_length, !zrange_length. split; [|ring]. nia.
Qed.

Lemma empty_scaled n b s : wf n b -> 0 < s ->
  empty (mkB (map (fun x => x * s) (bmin b)) (map (fun x => x * s) (bmax b))) = empty b.
Proof.
  intros W Hs. pose proof W as (Hn & H1 & H2).
  assert (W' : wf n (mkB (map (fun x => x * s) (bmin b)) (map (fun x => x * s) (bmax b)))).
  { split; [auto|]. cbn [bmin bmax]. rewrite !map_length. auto. }
  pose proof (empty_false n _ W') as A. pose proof (empty_false n b W) as B. cbn [bmin bmax] in A.
  apply eq_true_iff_eq. rewrite <- !not_false_iff_true, A, B.
  assert ((forall i, (i < n)%nat -> nth i (map (fun x => x * s) (bmin b)) 0 < nth i (map (fun x => x * s) (bmax b)) 0) <->
          (forall i, (i < n)%nat -> nth i (bmin b) 0 < nth i (bmax b) 0)) as ->; [|tauto].
  split; intros H i Hi; specialize (H i Hi); rewrite ?nth_map0 in * by lia; nia.
Qed.

Lemma unscale_scale n b s : wf n b -> 0 < s ->
  exists c, scale b s = Ok c /\ unscale c s = Ok b.
Proof.
  intros W Hs. unfold scale, unscale.
  replace (s >? 0) with true by (symmetry; rewrite Z.gtb_ltb; apply Z.ltb_lt; lia). cbn [negb].
  destruct (empty b) eqn:E.
  - exists b. rewrite E. auto.
  - eexists. split; [reflexivity|]. rewrite (empty_scaled n) by auto. rewrite E. cbn [bmin bmax].
    rewrite !map_map. destruct b as [lo hi]. cbn [bmin bmax].
    assert (A : forall l, map (fun x => Z.quot (x * s) s) l = l).
    { intros l. rewrite <- (map_id l) at 2. apply map_ext. intros x. apply Z.quot_mul. lia. }
    rewrite !A. reflexivity.
Qed.

(* quotient of a coordinate range with non-negative ends *)
Lemma unscale_spec n b s p : wf n b -> 0 < s -> (forall x, In x (bmin b ++ bmax b) -> 0 <= x) -> empty b = false -> inside b p ->
  exists c, unscale b s = Ok c /\ wf n c /\
    forall i, (i < n)%nat -> nth i (bmin c) 0 <= nth i p 0 / s <= nth i (bmax c) 0.
Proof.
  intros W Hs Pos E I. pose proof W as (Hn & H1 & H2). unfold unscale.
  replace (s >? 0) with true by (symmetry; rewrite Z.gtb_ltb; apply Z.ltb_lt; lia). cbn [negb]. rewrite E.
  eexists. split; [reflexivity|]. split.
  - split; [auto|]. cbn [bmin bmax]. rewrite !map_length. auto.
  - intros i Hi. cbn [bmin bmax]. rewrite !nth_map0 by lia.
    rewrite (inside_wf n) in I by auto. destruct I as [_ I]. specialize (I i Hi).
    assert (0 <= nth i (bmin b) 0) by (apply Pos, in_or_app; left; apply nth_In; lia).
    assert (0 <= nth i (bmax b) 0) by (apply Pos, in_or_app; right; apply nth_In; lia).
    rewrite !Z.quot_div_nonneg by lia. split; apply Z.div_le_mono; lia.
Qed.

Lemma any_gt_spec l m : length l = length m ->
  any_gt l m = true <-> exists i, (i < length l)%nat /\ nth i m 0 < nth i l 0.
Proof.
  revert m; induction l; destruct m; simpl; intros H; try discriminate.
  - split; [discriminate|intros (i & ? & _); lia].
  - destruct (a >? z) eqn:E; b2p.
    + split; auto. intros _. exists O; simpl; split; lia.
    + rewrite IHl by lia. split.
      * intros (i & ? & ?). exists (S i); split; auto; lia.
      * intros (i & ? & ?). destruct i; [lia|]. exists i; split; auto; lia.
Qed.

Lemma fully_empty_iff n b : wf n b ->
  fully_empty b = true <-> ~ exists p, length p = n /\ forall i, (i < n)%nat -> nth i (bmin b) 0 <= nth i p 0 <= nth i (bmax b) 0.
Proof.
  intros (Hn & H1 & H2). unfold fully_empty, dim.
  pose proof (any_gt_spec (bmin b) (bmax b) ltac:(lia)) as A.
  destruct (any_gt (bmin b) (bmax b)).
  - split; auto. intros _ (p & Hp & Hi). destruct (proj1 A eq_refl) as (i & ? & ?). specialize (Hi i ltac:(lia)). lia.
  - destruct (Nat.leb_spec (length (bmin b)) 0); [lia|]. split; [discriminate|].
    intros X. exfalso. apply X. exists (bmin b). split; auto. intros i Hi. split; [lia|].
    destruct (Z_le_gt_dec (nth i (bmin b) 0) (nth i (bmax b) 0)); auto.
    assert (false = true); [|discriminate]. apply A. exists i. lia.
Qed.
