From Coq Require Import ZArith QArith Qround List Lia Bool FinFun.
From Verif Require Import Lib.Base BBox.Model BBox.Spec.
Import ListNotations.
Local Open Scope Z_scope.

Ltac b2p := repeat match goal with
  | H : (_ && _) = true |- _ => apply andb_true_iff in H; destruct H
  | H : (_ || _) = false |- _ => apply orb_false_iff in H; destruct H
  | H : negb _ = true |- _ => apply negb_true_iff in H
  | H : negb _ = false |- _ => apply negb_false_iff in H
  | H : (_ <? _) = true |- _ => apply Z.ltb_lt in H
  | H : (_ <? _) = false |- _ => apply Z.ltb_ge in H
  | H : (_ <=? _) = true |- _ => apply Z.leb_le in H
  | H : (_ <=? _) = false |- _ => apply Z.leb_gt in H
  | H : (_ >? _) = _ |- _ => rewrite Z.gtb_ltb in H
  | H : (_ >=? _) = _ |- _ => rewrite Z.geb_leb in H
  end.

Lemma dim_check_ok b n : dim b = n -> dim_check b n = true.
Proof. intros <-. unfold dim_check. rewrite Nat.eqb_refl. apply orb_true_r. Qed.

Lemma any_ge_spec l m : length l = length m ->
  any_ge l m = true <-> exists i, (i < length l)%nat /\ nth i m 0 <= nth i l 0.
Proof.
  revert m; induction l; destruct m; simpl; intros H; try discriminate.
  - split; [discriminate|intros (i & ? & _); lia].
  - destruct (a >=? z) eqn:E; b2p.
    + split; auto. intros _. exists O; simpl; split; lia.
    + rewrite IHl by lia. split.
      * intros (i & ? & ?). exists (S i); split; auto; lia.
      * intros (i & ? & ?). destruct i; [lia|]. exists i; split; auto; lia.
Qed.

Lemma all_le_spec l m : length l = length m ->
  all_le l m = true <-> forall i, (i < length l)%nat -> nth i l 0 <= nth i m 0.
Proof.
  revert m; induction l; destruct m; simpl; intros H; try discriminate.
  - split; auto. intros; lia.
  - destruct (a <=? z) eqn:E; simpl; b2p.
    + rewrite IHl by lia. split.
      * intros Hi [|i] ?; [lia|apply Hi; lia].
      * intros Hi i ?. apply (Hi (S i)); lia.
    + split; [discriminate|]. intros Hi. specialize (Hi O). simpl in Hi. lia.
Qed.

Lemma all_lt_spec l m : length l = length m ->
  all_lt l m = true <-> forall i, (i < length l)%nat -> nth i l 0 < nth i m 0.
Proof.
  revert m; induction l; destruct m; simpl; intros H; try discriminate.
  - split; auto. intros; lia.
  - destruct (a <? z) eqn:E; simpl; b2p.
    + rewrite IHl by lia. split.
      * intros Hi [|i] ?; [lia|apply Hi; lia].
      * intros Hi i ?. apply (Hi (S i)); lia.
    + split; [discriminate|]. intros Hi. specialize (Hi O). simpl in Hi. lia.
Qed.

Lemma overlap_spec : forall a b c d, length a = length b -> length c = length a -> length d = length a ->
  overlap_loop a b c d = true <->
  forall i, (i < length a)%nat -> nth i a 0 < nth i d 0 /\ nth i c 0 < nth i b 0.
Proof.
  induction a; destruct b, c, d; simpl; intros; try discriminate.
  - split; auto. intros; lia.
  - destruct ((a >=? z1) || (z <=? z0)) eqn:E.
    + split; [discriminate|]. intros Hi. specialize (Hi O). simpl in Hi.
      apply orb_true_iff in E; destruct E; b2p; lia.
    + b2p. rewrite IHa by lia. split.
      * intros Hi [|i] ?; [lia|apply Hi; lia].
      * intros Hi i ?. apply (Hi (S i)); lia.
Qed.

Lemma empty_false n b : wf n b ->
  empty b = false <-> forall i, (i < n)%nat -> nth i (bmin b) 0 < nth i (bmax b) 0.
Proof.
  intros (Hn & H1 & H2). unfold empty, dim.
  pose proof (any_ge_spec (bmin b) (bmax b) ltac:(lia)) as S.
  destruct (any_ge (bmin b) (bmax b)).
  - split; [discriminate|]. intros Hi. destruct S as [S _].
    destruct (S eq_refl) as (i & ? & ?). specialize (Hi i). lia.
  - destruct (Nat.leb_spec (length (bmin b)) 0); [lia|].
    split; auto. intros _ i Hi.
    destruct (Z_lt_le_dec (nth i (bmin b) 0) (nth i (bmax b) 0)); auto.
    destruct S as [_ S]. discriminate S. exists i; split; auto; lia.
Qed.

Lemma wf_nonnil n b : wf n b -> bmin b <> [].
Proof. intros (?&?&?). destruct (bmin b); simpl in *; [lia|discriminate]. Qed.

Lemma inside_wf n b p : wf n b ->
  inside b p <-> length p = n /\ forall i, (i < n)%nat -> nth i (bmin b) 0 <= nth i p 0 < nth i (bmax b) 0.
Proof.
  intros W. pose proof (wf_nonnil _ _ W). destruct W as (?&?&?). unfold inside.
  split.
  - intros (?&_&Hi). split; [lia|]. intros; apply Hi; lia.
  - intros (?&Hi). split; [lia|]. split; auto. intros; apply Hi; lia.
Qed.

Lemma empty_iff n b : wf n b -> empty b = true <-> forall p, ~ inside b p.
Proof.
  intros W. pose proof (empty_false n b W) as E.
  destruct (empty b); split; auto; try discriminate.
  - intros _ p. rewrite (inside_wf n) by auto. intros [? Hi].
    assert (true = false); [|discriminate]. apply E. intros. specialize (Hi i). lia.
  - intros Hp. exfalso. apply (Hp (bmin b)). rewrite (inside_wf n) by auto.
    split; [apply W|]. intros. destruct E as [E _]. specialize (E eq_refl i). lia.
Qed.

Lemma contains_point_spec n b p : wf n b -> length p = n ->
  exists r, contains_point b p = Ok r /\ (r = true <-> inside b p).
Proof.
  intros W Hp. pose proof W as (Hn & H1 & H2). unfold contains_point.
  rewrite dim_check_ok by (unfold dim; lia). simpl. eexists; split; eauto.
  rewrite (inside_wf n) by auto.
  unfold dim. destruct (Nat.eqb_spec (length (bmin b)) 0); [lia|]. simpl.
  unfold all_ge. rewrite andb_true_iff, all_le_spec, all_lt_spec by lia.
  rewrite H1, Hp. split.
  - intros [A B]. split; auto.
  - intros [_ A]. split; intros; apply A; auto.
Qed.

Lemma contains_point_mismatch n b p : wf n b -> length p <> n -> contains_point b p = Throw ArgumentErr.
Proof.
  intros (?&?&?) ?. unfold contains_point, dim_check, dim.
  destruct (Nat.eqb_spec (length (bmin b)) 0); [lia|].
  destruct (Nat.eqb_spec (length p) (length (bmin b))); [lia|]. reflexivity.
Qed.

Lemma crop_spec n a b : wf n a -> wf n b ->
  exists c, crop a b = Ok c /\ wf n c /\ forall p, inside c p <-> inside a p /\ inside b p.
Proof.
  intros W1 W2. pose proof W1 as (Hn&H1&H2). pose proof W2 as (_&H3&H4).
  unfold crop. rewrite dim_check_ok by (unfold dim; lia). simpl.
  eexists; split; [reflexivity|].
  match goal with |- wf n ?c /\ _ => assert (Wc : wf n c) end.
  { split; [auto|]. simpl. rewrite !map2_length by lia. auto. }
  split; [exact Wc|]. intros p. rewrite !(inside_wf n) by auto. simpl. split.
  - intros [Hp Hi]. split; (split; [auto|]); intros i Hin; specialize (Hi i Hin);
    rewrite !(map2_nth _ 0 0) in Hi by lia;
    destruct (nth i (bmin a) 0 <? nth i (bmin b) 0) eqn:?;
    destruct (nth i (bmax a) 0 >? nth i (bmax b) 0) eqn:?; b2p; lia.
  - intros [[Hp Hi] [_ Hj]]. split; [auto|]. intros i Hin. specialize (Hi i Hin); specialize (Hj i Hin).
    rewrite !(map2_nth _ 0 0) by lia.
    destruct (nth i (bmin a) 0 <? nth i (bmin b) 0) eqn:?;
    destruct (nth i (bmax a) 0 >? nth i (bmax b) 0) eqn:?; b2p; lia.
Qed.

Lemma grow_point_ok n b p : wf n b -> length p = n ->
  exists c, grow_point b p = Ok c /\ wf n c /\
   forall i, (i < n)%nat ->
     nth i (bmin c) 0 = Z.min (nth i (bmin b) 0) (nth i p 0) /\
     nth i (bmax c) 0 = Z.max (nth i (bmax b) 0) (nth i p 0).
Proof.
  intros (Hn&H1&H2) Hp. unfold grow_point. rewrite dim_check_ok by (unfold dim; lia).
  unfold dim. destruct (Nat.eqb_spec (length (bmin b)) 0); [lia|]. simpl.
  eexists; split; [reflexivity|]. split.
  - split; [auto|]. simpl. rewrite !map2_length by lia. auto.
  - intros i Hi. simpl. rewrite !(map2_nth _ 0 0) by lia. unfold grow_min, grow_max.
    destruct (nth i p 0 <? nth i (bmin b) 0) eqn:?; destruct (nth i p 0 >? nth i (bmax b) 0) eqn:?; b2p; lia.
Qed.

Lemma grow_bbox_ok n a b : wf n a -> wf n b -> empty b = false ->
  exists c, grow_bbox a b = Ok c /\ wf n c /\
   forall i, (i < n)%nat ->
     nth i (bmin c) 0 = Z.min (nth i (bmin a) 0) (nth i (bmin b) 0) /\
     nth i (bmax c) 0 = Z.max (nth i (bmax a) 0) (nth i (bmax b) 0) \/
     nth i (bmax a) 0 < nth i (bmin a) 0 /\
     nth i (bmin c) 0 = Z.min (nth i (bmin a) 0) (nth i (bmin b) 0) /\
     nth i (bmax c) 0 = Z.max (nth i (bmax a) 0) (nth i (bmax b) 0).
Proof.
  intros W1 W2 E. pose proof (proj1 (empty_false n b W2) E) as E'.
  unfold grow_bbox. rewrite E.
  destruct (grow_point_ok n a (bmin b) W1) as (c1 & -> & Wc1 & H1); [apply W2|]. simpl.
  destruct (grow_point_ok n c1 (bmax b) Wc1) as (c2 & -> & Wc2 & H2); [apply W2|].
  exists c2; split; [auto|]. split; auto. intros i Hi. specialize (H1 i Hi); specialize (H2 i Hi); specialize (E' i Hi).
  left. lia.
Qed.

Lemma nth_map0 (f : Z -> Z) l i : (i < length l)%nat -> nth i (map f l) 0 = f (nth i l 0).
Proof.
  intros. rewrite (nth_indep _ 0 (f 0)) by (rewrite map_length; lia). apply map_nth.
Qed.

Lemma grow_bbox_least n a b : wf n a -> wf n b -> empty a = false -> empty b = false ->
  exists c, grow_bbox a b = Ok c /\ wf n c /\
    (forall p, inside a p \/ inside b p -> inside c p) /\
    (forall d, wf n d -> (forall p, inside a p \/ inside b p -> inside d p) ->
       forall p, inside c p -> inside d p).
Proof.
  intros W1 W2 E1 E2. destruct (grow_bbox_ok n a b W1 W2 E2) as (c & Ec & Wc & Hc).
  pose proof (proj1 (empty_false n a W1) E1) as N1.
  pose proof (proj1 (empty_false n b W2) E2) as N2.
  exists c. split; [auto|]. split; [auto|]. split.
  - intros p Hp. rewrite !(inside_wf n) in * by auto.
    split; [tauto|]. intros i Hi. specialize (Hc i Hi).
    destruct Hp as [[_ Hp]|[_ Hp]]; specialize (Hp i Hi); lia.
  - intros d Wd Hd p Hp.
    assert (Hlo : forall x, wf n x -> empty x = false -> (forall p, inside x p -> inside d p) ->
      forall i, (i < n)%nat -> nth i (bmin d) 0 <= nth i (bmin x) 0 /\ nth i (bmax x) 0 <= nth i (bmax d) 0).
    { intros x Wx Ex Hx i Hi. pose proof (proj1 (empty_false n x Wx) Ex) as Nx. split.
      - assert (I : inside x (bmin x)).
        { rewrite (inside_wf n) by auto. split; [apply Wx|]. intros. specialize (Nx i0). lia. }
        apply Hx in I. rewrite (inside_wf n) in I by auto. destruct I as [_ I]. specialize (I i Hi). lia.
      - assert (I : inside x (map (fun z => z - 1) (bmax x))).
        { rewrite (inside_wf n) by auto. split; [rewrite map_length; apply Wx|]. intros j Hj.
          specialize (Nx j Hj).
          rewrite nth_map0 by (destruct Wx as (?&?&?); lia). lia. }
        apply Hx in I. rewrite (inside_wf n) in I by auto. destruct I as [_ I]. specialize (I i Hi).
        rewrite nth_map0 in I by (destruct Wx as (?&?&?); lia). lia. }
    pose proof (Hlo a W1 E1 (fun p H => Hd p (or_introl H))) as L1.
    pose proof (Hlo b W2 E2 (fun p H => Hd p (or_intror H))) as L2.
    rewrite (inside_wf n) in * by auto. split; [tauto|]. intros i Hi.
    destruct Hp as [_ Hp]. specialize (Hp i Hi). specialize (L1 i Hi). specialize (L2 i Hi). specialize (Hc i Hi). lia.
Qed.

(* A box whose corners are those of b moved elementwise. *)
Lemma inside_mk n lo hi p : (0 < n)%nat -> length lo = n -> length hi = n ->
  inside (mkB lo hi) p <-> length p = n /\ forall i, (i < n)%nat -> nth i lo 0 <= nth i p 0 < nth i hi 0.
Proof. intros. apply inside_wf. split; auto. Qed.

Lemma shift_spec n b v p q : wf n b -> vadd p v q -> length q = n ->
  (inside (shift b v) q <-> inside b p) /\ (inside (unshift b v) p <-> inside b q).
Proof.
  intros W (V1&V2&V3) Hq. pose proof (empty_iff n b W) as E.
  unfold shift, unshift. destruct (empty b).
  - assert (forall p, ~ inside b p) by (apply E; auto). split; split; intros; exfalso; firstorder.
  - pose proof W as (Hn&H1&H2).
    rewrite !(inside_mk n) by (auto; rewrite map2_length; lia).
    rewrite !(inside_wf n) by auto. split; split; intros [Hl Hi]; (split; [lia|]); intros i Hin;
    specialize (Hi i Hin); specialize (V3 i ltac:(lia));
    rewrite ?(map2_nth _ 0 0) in * by lia; lia.
Qed.

Lemma expand_spec n b k q : wf n b -> 0 <= k ->
  inside (expand k b) q <-> exists p, inside b p /\ within k p q.
Proof.
  intros W Hk. pose proof (empty_iff n b W) as E. pose proof (empty_false n b W) as N.
  unfold expand. destruct (empty b).
  - assert (A : forall p, ~ inside b p) by (apply E; auto). split.
    + intros I; exfalso; firstorder.
    + intros (p & I & _). exfalso; firstorder.
  - pose proof (proj1 N eq_refl) as N'. clear N E. pose proof W as (Hn&H1&H2).
    rewrite (inside_mk n) by (auto; rewrite map_length; lia). split.
    + intros [Hq Hi].
      exists (map2 (fun x lh => Z.max (fst lh) (Z.min x (snd lh - 1))) q (combine (bmin b) (bmax b))).
      assert (Lc : length (combine (bmin b) (bmax b)) = n) by (rewrite combine_length; lia).
      assert (Nc : forall i, (i < n)%nat -> nth i (combine (bmin b) (bmax b)) (0,0) = (nth i (bmin b) 0, nth i (bmax b) 0)).
      { intros; apply combine_nth; lia. }
      assert (Hm : length (map2 (fun x lh => Z.max (fst lh) (Z.min x (snd lh - 1))) q (combine (bmin b) (bmax b))) = n).
      { rewrite map2_length; lia. }
      split.
      * rewrite (inside_wf n) by auto. split; [auto|]. intros i Hin.
        rewrite (map2_nth _ 0 (0,0)) by lia. rewrite Nc by auto. simpl.
        specialize (N' i Hin). lia.
      * split; [lia|]. intros i Hin. rewrite Hm in Hin.
        rewrite (map2_nth _ 0 (0,0)) by lia. rewrite Nc by auto. simpl.
        specialize (N' i Hin). specialize (Hi i Hin). rewrite !nth_map0 in Hi by lia. lia.
    + intros (p & I & (Hl & Hw)). rewrite (inside_wf n) in I by auto. destruct I as [Hp I].
      split; [lia|]. intros i Hin. rewrite !nth_map0 by lia.
      specialize (I i Hin). specialize (Hw i ltac:(lia)). lia.
Qed.

Lemma contract_spec n b k q : wf n b -> 0 <= k -> length q = n ->
  inside (contract k b) q <-> forall p, within k p q -> inside b p.
Proof.
  intros W Hk Hq. pose proof (empty_iff n b W) as E.
  assert (Wr : within k q q) by (split; auto; intros; lia).
  unfold contract. destruct (empty b).
  - assert (A : forall p, ~ inside b p) by (apply E; auto). split.
    + intros I; exfalso; firstorder.
    + intros I. exfalso; firstorder.
  - clear E. pose proof W as (Hn&H1&H2).
    rewrite (inside_mk n) by (auto; rewrite map_length; lia). split.
    + intros [_ Hi] p (Hl & Hw). rewrite (inside_wf n) by auto. split; [lia|].
      intros i Hin. specialize (Hi i Hin). rewrite !nth_map0 in Hi by lia. specialize (Hw i ltac:(lia)). lia.
    + intros Hp. split; [auto|]. intros i Hin. rewrite !nth_map0 by lia.
      assert (A : inside b (map (fun x => x - k) q)).
      { apply Hp. split; [apply map_length|]. intros j Hj. rewrite map_length in Hj. rewrite nth_map0 by lia. lia. }
      assert (B : inside b (map (fun x => x + k) q)).
      { apply Hp. split; [apply map_length|]. intros j Hj. rewrite map_length in Hj. rewrite nth_map0 by lia. lia. }
      rewrite (inside_wf n) in A, B by auto. destruct A as [_ A], B as [_ B].
      specialize (A i Hin); specialize (B i Hin). rewrite nth_map0 in A, B by lia. lia.
Qed.

Lemma intersects_spec n a b : wf n a -> wf n b -> empty a = false -> empty b = false ->
  exists r, intersects a b = Ok r /\ (r = true <-> exists p, inside a p /\ inside b p).
Proof.
  intros W1 W2 E1 E2.
  pose proof (proj1 (empty_false n a W1) E1) as N1.
  pose proof (proj1 (empty_false n b W2) E2) as N2.
  pose proof W1 as (Hn&H1&H2). pose proof W2 as (_&H3&H4).
  unfold intersects. rewrite dim_check_ok by (unfold dim; lia). simpl. eexists; split; [reflexivity|].
  unfold dim. destruct (Nat.eqb_spec (length (bmin a)) 0); [lia|]. simpl. rewrite andb_true_r.
  rewrite overlap_spec by lia. split.
  - intros Hi. exists (map2 Z.max (bmin a) (bmin b)).
    rewrite !(inside_wf n) by auto. rewrite map2_length by lia.
    split; (split; [auto|]); intros i Hin; rewrite (map2_nth _ 0 0) by lia;
    specialize (Hi i ltac:(lia)); specialize (N1 i Hin); specialize (N2 i Hin); lia.
  - intros (p & A & B) i Hi. rewrite !(inside_wf n) in * by auto.
    destruct A as [_ A], B as [_ B]. specialize (A i ltac:(lia)); specialize (B i ltac:(lia)). lia.
Qed.

Lemma contains_bbox_spec n a b : wf n a -> wf n b -> empty b = false ->
  exists r, contains_bbox a b = Ok r /\ (r = true <-> forall p, inside b p -> inside a p).
Proof.
  intros W1 W2 E2. pose proof (proj1 (empty_false n b W2) E2) as N2.
  pose proof W1 as (Hn&H1&H2). pose proof W2 as (_&H3&H4).
  unfold contains_bbox. rewrite dim_check_ok by (unfold dim; lia). simpl. eexists; split; [reflexivity|].
  unfold dim. destruct (Nat.eqb_spec (length (bmin a)) 0); [lia|]. simpl. unfold all_ge.
  rewrite andb_true_iff, !all_le_spec by lia. split.
  - intros [A B] p Hp. rewrite !(inside_wf n) in * by auto. split; [tauto|].
    destruct Hp as [_ Hp]. intros i Hi. specialize (A i ltac:(lia)); specialize (B i ltac:(lia)); specialize (Hp i Hi). lia.
  - intros Hp.
    assert (I1 : inside a (bmin b)).
    { apply Hp. rewrite (inside_wf n) by auto. split; auto. intros i Hi. specialize (N2 i Hi). lia. }
    assert (I2 : inside a (map (fun z => z - 1) (bmax b))).
    { apply Hp. rewrite (inside_wf n) by auto. split; [rewrite map_length; auto|]. intros i Hi.
      rewrite nth_map0 by lia. specialize (N2 i Hi). lia. }
    rewrite (inside_wf n) in I1, I2 by auto. destruct I1 as [_ I1], I2 as [_ I2]. split; intros i Hi.
    + specialize (I1 i ltac:(lia)). lia.
    + specialize (I2 i ltac:(lia)). rewrite nth_map0 in I2 by lia. lia.
Qed.

Lemma scale_spec n b s p : wf n b -> 0 < s -> length p = n ->
  exists c, scale b s = Ok c /\ (inside c (map (fun x => x * s) p) <-> inside b p).
Proof.
  intros W Hs Hp. pose proof (empty_iff n b W) as E. unfold scale.
  replace (s >? 0) with true by (symmetry; rewrite Z.gtb_ltb; apply Z.ltb_lt; lia). simpl.
  destruct (empty b).
  - eexists; split; [reflexivity|]. assert (forall p, ~ inside b p) by (apply E; auto). firstorder.
  - eexists; split; [reflexivity|]. pose proof W as (Hn&H1&H2).
    rewrite (inside_mk n) by (auto; rewrite map_length; lia). rewrite (inside_wf n) by auto.
    rewrite map_length. split; intros [_ Hi]; (split; [auto|]); intros i Hin; specialize (Hi i Hin);
    rewrite ?nth_map0 in * by lia; nia.
Qed.

(* Enumeration of the points of a 2-D box. *)
Definition points2 (b : bbox) : list (list Z) :=
  map (fun xy => [fst xy; snd xy])
    (list_prod (zrange (nth 0 (bmin b) 0) (nth 0 (bmax b) 0)) (zrange (nth 1 (bmin b) 0) (nth 1 (bmax b) 0))).


Lemma nodup_app_intro {A} (l m : list A) : NoDup l -> NoDup m -> (forall x, In x l -> ~ In x m) -> NoDup (l ++ m).
Proof.
  induction l; simpl; intros H1 H2 H3; auto. inversion H1; subst. constructor.
  - rewrite in_app_iff. intros [?|?]; [auto|]. apply (H3 a); auto.
  - apply IHl; auto.
Qed.

Lemma nodup_list_prod {A B} (l : list A) (m : list B) : NoDup l -> NoDup m -> NoDup (list_prod l m).
Proof.
  induction l; simpl; intros; [constructor|]. inversion H; subst.
  apply nodup_app_intro; auto.
  - apply Injective_map_NoDup; auto. intros x y E; congruence.
  - intros [x y] I1 I2. apply in_map_iff in I1. destruct I1 as (z & E & _). inversion E; subst.
    apply in_prod_iff in I2. tauto.
Qed.

Lemma area_counts b : wf 2 b ->
  exists l, NoDup l /\ (forall p, In p l <-> inside b p) /\ Z.of_nat (length l) = area b /\
    area b = width b * height b.
Proof.
  intros W. pose proof (empty_false 2 b W) as N. pose proof (empty_iff 2 b W) as E.
  unfold area, width, height, extent. destruct (empty b) eqn:Eb.
  - exists []. assert (A : forall p, ~ inside b p) by (apply E; auto).
    split; [constructor|]. split; [|simpl; lia]. intros p; simpl. split; [tauto|]. apply A.
  - pose proof (proj1 N eq_refl) as N'. exists (points2 b). unfold points2.
    pose proof (N' 0%nat ltac:(lia)) as N0. pose proof (N' 1%nat ltac:(lia)) as N1. split; [|split].
    + apply Injective_map_NoDup.
      * intros [x y] [x' y'] H; simpl in H; congruence.
      * apply nodup_list_prod; apply zrange_nodup.
    + intros p. rewrite in_map_iff, (inside_wf 2) by auto. split.
      * intros ((x,y) & <- & I). apply in_prod_iff in I. rewrite !in_zrange in I. simpl.
        split; auto. intros [|[|i]] Hi; simpl; lia.
      * intros [Hl Hi]. destruct p as [|x [|y [|? ?]]]; simpl in Hl; try lia.
        exists (x,y). split; auto. apply in_prod_iff. rewrite !in_zrange.
        pose proof (Hi 0%nat ltac:(lia)). pose proof (Hi 1%nat ltac:(lia)). simpl in *. lia.
    + rewrite map_length, prod_length, !zrange_length. split; nia.
Qed.

(* ---- growing a default box by points ---- *)

Lemma default_wf n : (0 < n)%nat -> wf n (default_int n).
Proof. intros. unfold default_int, default_box. split; auto. simpl. rewrite !repeat_length. auto. Qed.

Lemma grow_points_ok n ps : forall b, wf n b -> (forall p, In p ps -> length p = n) ->
  exists c, grow_points b ps = Ok c /\ wf n c /\
   forall i, (i < n)%nat ->
     nth i (bmin c) 0 = fold_right Z.min (nth i (bmin b) 0) (map (fun p => nth i p 0) ps) /\
     nth i (bmax c) 0 = fold_right Z.max (nth i (bmax b) 0) (map (fun p => nth i p 0) ps).
Proof.
  induction ps as [|p ps IH]; intros b W Hl; simpl.
  - exists b. auto.
  - destruct (grow_point_ok n b p W) as (b1 & -> & W1 & H1); [apply Hl; simpl; auto|]. simpl.
    destruct (IH b1 W1) as (c & Ec & Wc & Hc); [intros; apply Hl; simpl; auto|].
    exists c. split; [auto|]. split; [auto|]. intros i Hi. specialize (Hc i Hi). specialize (H1 i Hi).
    destruct Hc as [-> ->], H1 as [-> ->].
    assert (Fm : forall l a x, fold_right Z.min (Z.min a x) l = Z.min x (fold_right Z.min a l)).
    { induction l; simpl; intros; [lia|]. rewrite IHl. lia. }
    assert (FM : forall l a x, fold_right Z.max (Z.max a x) l = Z.max x (fold_right Z.max a l)).
    { induction l; simpl; intros; [lia|]. rewrite IHl. lia. }
    rewrite Fm, FM. auto.
Qed.

Lemma fold_min_le l a : forall x, In x l -> fold_right Z.min a l <= x.
Proof. induction l; simpl; intros x; [tauto|]. intros [->|H]; [lia|]. specialize (IHl x H). lia. Qed.
Lemma fold_max_ge l a : forall x, In x l -> x <= fold_right Z.max a l.
Proof. induction l; simpl; intros x; [tauto|]. intros [->|H]; [lia|]. specialize (IHl x H). lia. Qed.
Lemma fold_min_in l a : l <> [] -> (forall x, In x l -> x <= a) -> In (fold_right Z.min a l) l.
Proof.
  induction l as [|y l IH]; [tauto|]. intros _ H. simpl. destruct l as [|z l].
  - simpl. left. specialize (H y). simpl in H. lia.
  - destruct (Z.min_spec y (fold_right Z.min a (z :: l))) as [[_ ->]|[_ ->]]; auto.
    right. apply IH; [discriminate|]. intros; apply H; simpl in *; auto.
Qed.
Lemma fold_max_in l a : l <> [] -> (forall x, In x l -> a <= x) -> In (fold_right Z.max a l) l.
Proof.
  induction l as [|y l IH]; [tauto|]. intros _ H. simpl. destruct l as [|z l].
  - simpl. left. specialize (H y). simpl in H. lia.
  - destruct (Z.max_spec y (fold_right Z.max a (z :: l))) as [[_ ->]|[_ ->]]; auto.
    right. apply IH; [discriminate|]. intros; apply H; simpl in *; auto.
Qed.

Lemma grow_default_tight n ps : (0 < n)%nat -> ps <> [] ->
  (forall p, In p ps -> length p = n /\ forall x, In x p -> - (i32_max - 1) <= x <= i32_max - 1) ->
  exists c, grow_points (default_int n) ps = Ok c /\ wf n c /\
    forall i, (i < n)%nat ->
      (forall p, In p ps -> nth i (bmin c) 0 <= nth i p 0 <= nth i (bmax c) 0) /\
      (exists p, In p ps /\ nth i p 0 = nth i (bmin c) 0) /\
      (exists p, In p ps /\ nth i p 0 = nth i (bmax c) 0).
Proof.
  intros Hn Hne Hp.
  destruct (grow_points_ok n ps (default_int n) (default_wf n Hn)) as (c & Ec & Wc & Hc); [intros; apply Hp; auto|].
  exists c. split; [auto|]. split; [auto|]. intros i Hi. destruct (Hc i Hi) as [Hm HM].
  set (l := map (fun p => nth i p 0) ps) in *.
  assert (Hl : l <> []) by (unfold l; destruct ps; [tauto|discriminate]).
  assert (Hin : forall x, In x l -> exists p, In p ps /\ nth i p 0 = x).
  { unfold l. intros x Hx. apply in_map_iff in Hx. destruct Hx as (p & ? & ?). eauto. }
  assert (Hr : forall x, In x l -> - (i32_max - 1) <= x <= i32_max - 1).
  { intros x Hx. destruct (Hin x Hx) as (p & Ip & <-). destruct (Hp p Ip) as [? Hb]. apply Hb. apply nth_In. lia. }
  assert (D1 : nth i (bmin (default_int n)) 0 = i32_max - 1).
  { simpl. rewrite (nth_indep _ 0 (i32_max - 1)) by (rewrite repeat_length; lia). apply nth_repeat. }
  assert (D2 : nth i (bmax (default_int n)) 0 = - (i32_max - 1)).
  { simpl. rewrite (nth_indep _ 0 (- (i32_max - 1))) by (rewrite repeat_length; lia). apply nth_repeat. }
  rewrite D1 in Hm. rewrite D2 in HM. split; [|split].
  - intros p Ip. assert (In (nth i p 0) l) by (unfold l; apply in_map_iff; eauto).
    rewrite Hm, HM. split; [apply fold_min_le|apply fold_max_ge]; auto.
  - destruct (Hin (nth i (bmin c) 0)) as (p & ? & ?); eauto. rewrite Hm. apply fold_min_in; auto. intros x Hx; apply Hr; auto.
  - destruct (Hin (nth i (bmax c) 0)) as (p & ? & ?); eauto. rewrite HM. apply fold_max_in; auto. intros x Hx; apply Hr; auto.
Qed.

(* Growing a default box by a box in range gives that box back. *)
Lemma grow_default_bbox n b : wf n b -> empty b = false ->
  (forall x, In x (bmin b ++ bmax b) -> - (i32_max - 1) <= x <= i32_max - 1) ->
  grow_bbox (default_int n) b = Ok b.
Proof.
  intros W E R. pose proof W as (Hn&H1&H2).
  destruct (grow_bbox_ok n (default_int n) b (default_wf n Hn) W E) as (c & -> & Wc & Hc).
  f_equal. destruct b as [lo hi], c as [lo' hi']. simpl in *. destruct Wc as (_&H3&H4). simpl in *.
  assert (D1 : forall i, (i < n)%nat -> nth i (repeat (i32_max - 1) n) 0 = i32_max - 1).
  { intros. rewrite (nth_indep _ 0 (i32_max - 1)) by (rewrite repeat_length; lia). apply nth_repeat. }
  assert (D2 : forall i, (i < n)%nat -> nth i (repeat (- (i32_max - 1)) n) 0 = - (i32_max - 1)).
  { intros. rewrite (nth_indep _ 0 (- (i32_max - 1))) by (rewrite repeat_length; lia). apply nth_repeat. }
  assert (Rl : forall i, (i < n)%nat -> - (i32_max - 1) <= nth i lo 0 <= i32_max - 1)
    by (intros; apply R, in_or_app; left; apply nth_In; lia).
  assert (Rh : forall i, (i < n)%nat -> - (i32_max - 1) <= nth i hi 0 <= i32_max - 1)
    by (intros; apply R, in_or_app; right; apply nth_In; lia).
  f_equal; apply (nth_ext _ _ 0 0); try lia; intros i Hi;
    specialize (Hc i ltac:(lia)); specialize (Rl i ltac:(lia)); specialize (Rh i ltac:(lia));
    rewrite D1, D2 in Hc by lia; lia.
Qed.

(* ---- integer hull of a rational box ---- *)
Local Open Scope Q_scope.
Lemma to_int_loop_ok : forall lo hi, length lo = length hi ->
  (forall i, (i < length lo)%nat -> nth i lo 0 <= nth i hi 0) ->
  (forall i, (i < length lo)%nat -> (i32_min <= Qfloor (nth i lo 0%Q))%Z /\ (Qfloor (nth i hi 0%Q) < i32_max)%Z) ->
  exists l h, to_int_loop lo hi = Ok (Some (l, h)) /\ length l = length lo /\ length h = length lo /\
   forall i, (i < length lo)%nat -> nth i l 0%Z = Qfloor (nth i lo 0%Q) /\ nth i h 0%Z = (Qfloor (nth i hi 0%Q) + 1)%Z.
Proof.
  induction lo as [|a lo IH]; destruct hi as [|b hi]; simpl; intros Hl Hle Hr; try discriminate.
  - exists [], []. repeat split; auto; lia.
  - pose proof (Hle O ltac:(lia)) as A0. pose proof (Hr O ltac:(lia)) as R0. simpl in A0, R0.
    replace (Qle_bool a b) with true by (symmetry; apply Qle_bool_iff; auto). simpl.
    pose proof (Qfloor_resp_le a b A0) as F.
    replace (i32_okb (Qfloor a) && i32_okb (Qfloor b + 1)) with true.
    2:{ symmetry. unfold i32_okb. rewrite !andb_true_iff, !Z.leb_le. unfold i32_min, i32_max in *. lia. }
    destruct (IH hi) as (l & h & -> & L1 & L2 & Hi); [lia| | |].
    { intros i Hi. apply (Hle (S i)). lia. }
    { intros i Hi. apply (Hr (S i)). lia. }
    simpl. eexists _, _. split; [reflexivity|]. simpl. split; [lia|]. split; [lia|].
    intros [|i] Hin; [auto|]. apply Hi. lia.
Qed.

Lemma hull_encloses n b : (0 < n)%nat -> length (qmin b) = n -> length (qmax b) = n ->
  (forall i, (i < n)%nat -> nth i (qmin b) 0 <= nth i (qmax b) 0) ->
  (forall i, (i < n)%nat -> (i32_min <= Qfloor (nth i (qmin b) 0%Q))%Z /\ (Qfloor (nth i (qmax b) 0%Q) < i32_max)%Z) ->
  exists c, grow_bbox_to_int b = Ok c /\ wf n c /\
    (forall i, (i < n)%nat ->
       inject_Z (nth i (bmin c) 0%Z) <= nth i (qmin b) 0 /\ nth i (qmax b) 0 < inject_Z (nth i (bmax c) 0%Z) /\
       nth i (qmin b) 0 < inject_Z (nth i (bmin c) 0%Z) + 1 /\ inject_Z (nth i (bmax c) 0%Z) <= nth i (qmax b) 0 + 1).
Proof.
  intros Hn H1 H2 Hle Hr. unfold grow_bbox_to_int.
  destruct (to_int_loop_ok (qmin b) (qmax b)) as (l & h & -> & L1 & L2 & Hi);
    [lia|rewrite H1; auto|rewrite H1; auto|].
  simpl. eexists; split; [reflexivity|]. split; [split; simpl; auto; split; lia|]. simpl.
  intros i Hin. destruct (Hi i ltac:(lia)) as [-> ->].
  pose proof (Qfloor_le (nth i (qmin b) 0)). pose proof (Qlt_floor (nth i (qmax b) 0)).
  pose proof (Qlt_floor (nth i (qmin b) 0)) as L3. pose proof (Qfloor_le (nth i (qmax b) 0)) as L4.
  rewrite inject_Z_plus in L3. repeat split; auto.
  rewrite inject_Z_plus. apply Qplus_le_compat; auto. apply Qle_refl.
Qed.
