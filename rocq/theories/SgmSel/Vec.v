(* The choice of the minimum of a vector. *)
From Coq Require Import ZArith List Bool Lia.
From Verif Require Import Lib.Base Lib.Lists ImgMem.Model Lib.Img Sgm.Model Sgm.Spec Sgm.Mem SgmSel.Model SgmSel.Spec.
Import ListNotations.
Local Open Scope Z_scope.

Lemma raster_loop {S} (P : Z -> S -> Prop) (body : Z -> Z -> S -> res S) w h s : 0 <= w -> 0 <= h -> P 0 s ->
  (forall row col s, 0 <= row < h -> 0 <= col < w -> P (row * w + col) s ->
     exists s', body row col s = Ok s' /\ P (row * w + col + 1) s') ->
  exists s', for_up 0 h (fun row s => for_up 0 w (fun col s => body row col s) s) s = Ok s' /\ P (h * w) s'.
Proof.
  intros W H P0 B.
  destruct (for_up_inv (fun row s => P (row * w) s) (fun row s => for_up 0 w (fun col s => body row col s) s) 0 h s) as (s' & E & Q); [lia|exact P0| |].
  - intros row t Hr Pt.
    destruct (for_up_inv (fun col s => P (row * w + col) s) (fun col s => body row col s) 0 w t) as (t' & E & Q); [lia|now rewrite Z.add_0_r| |].
    + intros col u Hc Pu. destruct (B row col u Hr Hc Pu) as (u' & E & Q). exists u'. split; auto. now replace (row * w + (col + 1)) with (row * w + col + 1) by lia.
    + exists t'. split; auto. now replace ((row + 1) * w) with (row * w + w) by lia.
  - exists s'. auto.
Qed.

(* the state of the search for the minimum after the values l *)
Definition tracked (l : list Z) (t : Z * Z * Z) : Prop :=
  let '(mi, mv, n) := t in
  (l = [] /\ t = track0) \/
  (l <> [] /\ first_min l mi /\ mv = item l mi /\ n = Z.of_nat (length (filter (fun z => z =? mv) l))).
Lemma item_app1 l v j : 0 <= j < Z.of_nat (length l) -> item (l ++ [v]) j = item l j.
Proof. intros H. unfold item. apply app_nth1. lia. Qed.
Lemma item_app2 l v : item (l ++ [v]) (Z.of_nat (length l)) = v.
Proof. unfold item. rewrite app_nth2 by lia. now replace (Z.to_nat (Z.of_nat (length l)) - length l)%nat with 0%nat by lia. Qed.
Lemma tracked_snoc l t v : u16s l -> 0 <= v <= 65535 -> tracked l t -> tracked (l ++ [v]) (track (Z.of_nat (length l)) v t).
Proof.
  intros U Hv. destruct t as [[mi mv] n]. unfold tracked.
  assert (L : Z.of_nat (length (l ++ [v])) = Z.of_nat (length l) + 1) by (rewrite app_length; cbn [length]; lia).
  intros [[-> E]|(Ne & F & Em & En)].
  - injection E as -> -> ->. cbn [length app track Z.of_nat].
    assert (FM : first_min [v] 0) by (split; [cbn; lia|]; intros j Hj; cbn [length] in Hj; replace j with 0 by lia; lia).
    destruct (Z.eqb_spec v 65535) as [->|Nv]; [|rewrite (proj2 (Z.ltb_lt v 65535)) by lia].
    + cbn. right. repeat split; auto; try discriminate; cbn; try lia; apply FM; auto.
    + right. cbn. rewrite Z.eqb_refl. repeat split; auto; try discriminate; cbn; try lia; apply FM; auto.
  - destruct F as [Fi Fj].
    assert (IV : forall z, In z l -> mv <= z).
    { intros z Iz. apply (In_nth _ _ 0) in Iz. destruct Iz as (k & Hk & <-). specialize (Fj (Z.of_nat k) ltac:(lia)).
      rewrite Em. unfold item at 2 in Fj. rewrite Nat2Z.id in Fj. lia. }
    assert (Ne' : l ++ [v] <> []) by (destruct l; discriminate).
    assert (FA : forall m, filter (fun z => z =? m) (l ++ [v]) = filter (fun z => z =? m) l ++ (if v =? m then [v] else [])).
    { intros m. rewrite filter_app. cbn [filter]. destruct (v =? m); reflexivity. }
    unfold track. destruct (Z.ltb_spec v mv) as [Lt|Ge].
    + right. split; auto. rewrite item_app2. split; [|split; auto].
      * split; [lia|]. intros j Hj. rewrite item_app2. destruct (Z.eq_dec j (Z.of_nat (length l))) as [->|Nj]; [rewrite item_app2; lia|].
        rewrite item_app1 by lia. specialize (Fj j ltac:(lia)). lia.
      * rewrite FA, Z.eqb_refl, app_length. cbn [length].
        replace (filter (fun z => z =? v) l) with (@nil Z); [cbn; lia|]. symmetry.
        destruct (filter (fun z => z =? v) l) as [|z l0] eqn:E; auto. exfalso. assert (Iz : In z (filter (fun z => z =? v) l)) by (rewrite E; left; auto).
        apply filter_In in Iz. rewrite Z.eqb_eq in Iz. destruct Iz as [Iz ->]. specialize (IV v Iz). lia.
    + right. split; auto. rewrite item_app1 by lia. split; [|split; auto].
      * split; [lia|]. intros j Hj. rewrite item_app1 by lia. destruct (Z.eq_dec j (Z.of_nat (length l))) as [->|Nj]; [rewrite item_app2; lia|].
        rewrite item_app1 by lia. apply Fj. lia.
      * rewrite FA, app_length, En. destruct (v =? mv); cbn [length]; lia.
Qed.
Lemma tracked_minima l t : tracked l t -> l <> [] -> let '(mi, mv, n) := t in first_min l mi /\ n = minima l.
Proof.
  destruct t as [[mi mv] n]. intros [[-> _]|(Ne & F & Em & En)] Nl; [congruence|]. split; auto. rewrite En. unfold minima. do 2 f_equal.
  destruct F as [Fi Fj]. apply filter_ext_in. intros z Iz.
  assert (IV : forall z, In z l -> mv <= z).
  { intros u Iu. apply (In_nth _ _ 0) in Iu. destruct Iu as (k & Hk & <-). specialize (Fj (Z.of_nat k) ltac:(lia)).
    rewrite Em. unfold item at 2 in Fj. rewrite Nat2Z.id in Fj. lia. }
  assert (Im : In mv l) by (rewrite Em; unfold item; apply nth_In; lia).
  destruct (Z.eqb_spec z mv) as [->|N]; symmetry.
  - apply forallb_forall. intros y Iy. apply Z.leb_le. auto.
  - apply not_true_iff_false. intros E. rewrite forallb_forall in E. specialize (E mv Im). rewrite Z.leb_le in E. specialize (IV z Iz). lia.
Qed.

Lemma at_item l i : at_ l i = item l i. Proof. reflexivity. Qed.
Lemma zrange_snoc a b : a <= b -> zrange a (b + 1) = zrange a b ++ [b].
Proof. intros H. rewrite (zrange_app a b (b + 1)) by lia. f_equal. rewrite zrange_cons by lia. now rewrite zrange_nil by lia. Qed.
Lemma item_u16 v i : u16s v -> 0 <= i < Z.of_nat (length v) -> 0 <= item v i <= 65535.
Proof. intros U H. unfold u16s in U. rewrite Forall_forall in U. apply U. unfold item. apply nth_In. lia. Qed.

Lemma filter_len {A} (f : A -> bool) l : (length (filter f l) <= length l)%nat.
Proof. induction l as [|a l IH]; cbn [filter length]; auto. destruct (f a); cbn [length]; lia. Qed.

Section V.
Variable avg : list Z -> Z.
Hypothesis AV : mean_ok avg.
Variables w h : Z.
Hypothesis W : 0 < w.
Hypothesis H : 0 < h.
Notation sz := (h * w).

Lemma copy_scan_ok vec : Z.of_nat (length vec) = sz -> u16s vec ->
  exists t, copy_scan w h vec = Ok (vec, t) /\ tracked vec t.
Proof.
  intros L U. unfold copy_scan.
  match goal with |- context[for_up 0 h _ ?s0] => destruct (raster_loop (fun i (s : Z * list Z * (Z * Z * Z)) =>
     let '(index, buffer, t) := s in index = i /\ len buffer = sz /\ (forall j, 0 <= j < i -> at_ buffer j = item vec j) /\
       tracked (map (item vec) (zrange 0 i)) t)
    (fun row col s => let '(index, buffer, t) := s in
           value <- rd vec index ;;
           buffer <- wr buffer index value ;;
           Ok (index + 1, buffer, track index value t)) w h s0) as (s & E & Q) end; [lia|lia| | |].
  - split; auto. split; [rewrite len_repeat; nia|]. split; [lia|]. rewrite zrange_nil by lia. left. auto.
  - intros row col [[index buffer] t] Hr Hc (-> & Lb & P & T).
    assert (Hi : 0 <= row * w + col < sz) by nia. set (i := row * w + col) in *. clearbody i.
    rewrite rd_in by (unfold len; lia). cbn [bind]. rewrite wr_in by lia. cbn [bind]. eexists. split; [reflexivity|].
    split; auto. split; [now rewrite len_upd|]. split.
    + intros j Hj. rewrite at_upd by lia. destruct (Z.eqb_spec j i) as [->|N]; [apply at_item|apply P; lia].
    + rewrite zrange_snoc, map_app by lia. cbn [map].
      change (at_ vec i) with (item vec i).
      pose proof (tracked_snoc (map (item vec) (zrange 0 i)) t (item vec i)) as TS. rewrite map_length, zrange_length in TS.
      replace (Z.of_nat (Z.to_nat (i - 0))) with i in TS by lia. apply TS; auto; [|apply item_u16; auto; lia].
      unfold u16s. apply Forall_forall. intros z Iz. apply in_map_iff in Iz. destruct Iz as (j & <- & Ij). apply in_zrange in Ij. apply item_u16; auto; lia.
  - rewrite E. cbn [bind]. destruct s as [[index buffer] t]. destruct Q as (-> & Lb & P & T).
    assert (B : buffer = vec) by (apply at_ext; [unfold len in *; lia|intros j Hj; apply P; lia]).
    exists t. rewrite B. split; auto. replace (map (item vec) (zrange 0 sz)) with vec in T; auto.
    apply at_ext; [unfold len; rewrite map_length, zrange_length; nia|]. intros j Hj. unfold len in Hj. unfold at_ at 2.
    rewrite (nth_indep _ 0 (item vec 0)) by (rewrite map_length, zrange_length; lia).
    rewrite map_nth. unfold zrange. rewrite zseq_nth by lia. rewrite at_item. f_equal. lia.
Qed.

Definition value_at (vertical : bool) (input : list Z) (i : Z) : Z :=
  avg (map (cell w input) (three vertical w h (i mod w) (i / w))).
Lemma avg_bounds l lo hi : l <> [] -> (length l <= 3)%nat -> u16s l -> (forall z, In z l -> lo <= z <= hi) -> lo <= avg l <= hi.
Proof.
  intros Ne L U B. specialize (AV l Ne L U).
  assert (S : Z.of_nat (length l) * lo <= zsum l <= Z.of_nat (length l) * hi).
  { clear AV Ne L U. induction l as [|a l IH]; [cbn; lia|]. change (zsum (a :: l)) with (a + zsum l). cbn [length].
    specialize (IH (fun z Iz => B z (or_intror Iz))). specialize (B a (or_introl eq_refl)). lia. }
  assert (P : 0 < Z.of_nat (length l)) by (destruct l; [congruence|cbn [length]; lia]). nia.
Qed.
Lemma three_in vertical x y p : 0 <= x < w -> 0 <= y < h -> In p (three vertical w h x y) ->
  0 <= fst p < w /\ 0 <= snd p < h.
Proof.
  intros Hx Hy I. apply filter_In in I. destruct I as [_ I]. unfold in_imgb in I. rewrite !andb_true_iff, !Z.leb_le, !Z.ltb_lt in I. lia.
Qed.
Lemma three_ne vertical x y : 0 <= x < w -> 0 <= y < h -> three vertical w h x y <> [] /\ (length (three vertical w h x y) <= 3)%nat.
Proof.
  intros Hx Hy. split.
  - assert (I : In (x, y) (three vertical w h x y)).
    { apply filter_In. split; [destruct vertical; cbn; auto|]. cbn [fst snd]. unfold in_imgb. rewrite !andb_true_iff, !Z.leb_le, !Z.ltb_lt. lia. }
    intros C. rewrite C in I. destruct I.
  - unfold three. etransitivity; [apply filter_len|]. destruct vertical; cbn; lia.
Qed.
Lemma cell_u16 v p : u16s v -> Z.of_nat (length v) = sz -> 0 <= fst p < w -> 0 <= snd p < h -> 0 <= cell w v p <= 65535.
Proof. intros U L Hx Hy. apply item_u16; auto. nia. Qed.
Lemma value_bounds vertical v i lo hi : u16s v -> Z.of_nat (length v) = sz -> 0 <= i < sz ->
  (forall z, In z v -> lo <= z <= hi) -> lo <= value_at vertical v i <= hi.
Proof.
  intros U L Hi B. unfold value_at.
  assert (Hx : 0 <= i mod w < w) by (apply Z.mod_pos_bound; lia). assert (Hy : 0 <= i / w < h).
  { split; [apply Z.div_pos; lia|apply Z.div_lt_upper_bound; lia]. }
  destruct (three_ne vertical _ _ Hx Hy) as [Ne Le].
  apply avg_bounds.
  - intros C. apply map_eq_nil in C. congruence.
  - now rewrite map_length.
  - unfold u16s. apply Forall_forall. intros z Iz. apply in_map_iff in Iz. destruct Iz as (p & <- & Ip).
    destruct (three_in _ _ _ _ Hx Hy Ip). apply cell_u16; auto.
  - intros z Iz. apply in_map_iff in Iz. destruct Iz as (p & <- & Ip). destruct (three_in _ _ _ _ Hx Hy Ip).
    apply B. unfold cell, item. apply nth_In. nia.
Qed.

Lemma under_ok input index at_' size step : 0 < size -> 0 <= at_' < size ->
  (forall k, -1 <= k <= 1 -> 0 <= at_' + k < size -> 0 <= index + k * step < Z.of_nat (length input)) ->
  under input index at_' size step =
    Ok (map (fun k => item input (index + k * step)) (zrange (if -1 + at_' <? 0 then 0 else -1) ((if 1 + at_' >=? size then 0 else 1) + 1))).
Proof.
  intros Hs Ha B. unfold under. rewrite Z.geb_leb.
  set (mn := if -1 + at_' <? 0 then 0 else -1). set (mx := if size <=? 1 + at_' then 0 else 1).
  assert (M : -1 <= mn <= 0 /\ 0 <= mx <= 1 /\ 0 <= at_' + mn /\ at_' + mx < size).
  { unfold mn, mx. destruct (Z.ltb_spec (-1 + at_') 0), (Z.leb_spec size (1 + at_')); lia. }
  clearbody mn mx.
  destruct (for_up_inv (fun k l => l = map (fun k => item input (index + k * step)) (zrange mn k))
    (fun k l => v <- rd input (index + k * step) ;; Ok (l ++ [v])) mn (mx + 1) []) as (s & E & Q); [lia|now rewrite zrange_nil by lia| |].
  - intros k l Hk ->. rewrite rd_in by (unfold len; apply B; lia). cbn [bind]. eexists. split; [reflexivity|].
    rewrite zrange_snoc, map_app by lia. reflexivity.
  - rewrite E, Q. reflexivity.
Qed.
Ltac fin3 :=
  change (zrange 0 (0 + 1)) with [0]; change (zrange 0 (1 + 1)) with [0; 1];
  change (zrange (-1) (0 + 1)) with [-1; 0]; change (zrange (-1) (1 + 1)) with [-1; 0; 1];
  cbn [map andb]; unfold cell; cbn [fst snd];
  repeat match goal with |- _ :: _ = _ :: _ => apply f_equal2; [apply f_equal; lia|] end; reflexivity.
Lemma read_ok (vertical : bool) input row col : Z.of_nat (length input) = sz -> 0 <= row < h -> 0 <= col < w ->
  (if vertical then under input (row * w + col) row h w else under input (row * w + col) col w 1) =
  Ok (map (cell w input) (three vertical w h col row)).
Proof.
  intros L Hr Hc. destruct vertical.
  - rewrite under_ok by (try lia; intros k Hk Hb; nia). f_equal. unfold three. cbn [filter fst snd]. unfold in_imgb.
    rewrite (proj2 (Z.leb_le 0 col)), (proj2 (Z.ltb_lt col w)), (proj2 (Z.leb_le 0 row)), (proj2 (Z.ltb_lt row h)) by lia. cbn [andb].
    rewrite Z.geb_leb.
    destruct (Z.ltb_spec (-1 + row) 0), (Z.leb_spec h (1 + row)).
    + rewrite (proj2 (Z.leb_gt 0 (row - 1))), (proj2 (Z.ltb_ge (row + 1) h)) by lia. rewrite !andb_false_r. fin3.
    + rewrite (proj2 (Z.leb_gt 0 (row - 1))), (proj2 (Z.ltb_lt (row + 1) h)), (proj2 (Z.leb_le 0 (row + 1))) by lia.
      fin3.
    + rewrite (proj2 (Z.leb_le 0 (row - 1))), (proj2 (Z.ltb_ge (row + 1) h)), (proj2 (Z.ltb_lt (row - 1) h)) by lia. rewrite andb_false_r.
      fin3.
    + rewrite (proj2 (Z.leb_le 0 (row - 1))), (proj2 (Z.ltb_lt (row + 1) h)), (proj2 (Z.ltb_lt (row - 1) h)), (proj2 (Z.leb_le 0 (row + 1))) by lia.
      fin3.
  - rewrite under_ok by (try lia; intros k Hk Hb; nia). f_equal. unfold three. cbn [filter fst snd]. unfold in_imgb.
    rewrite (proj2 (Z.leb_le 0 col)), (proj2 (Z.ltb_lt col w)), (proj2 (Z.leb_le 0 row)), (proj2 (Z.ltb_lt row h)) by lia. rewrite !andb_true_r.
    rewrite Z.geb_leb.
    destruct (Z.ltb_spec (-1 + col) 0), (Z.leb_spec w (1 + col)).
    + rewrite (proj2 (Z.leb_gt 0 (col - 1))), (proj2 (Z.ltb_ge (col + 1) w)) by lia. rewrite !andb_false_r. fin3.
    + rewrite (proj2 (Z.leb_gt 0 (col - 1))), (proj2 (Z.ltb_lt (col + 1) w)), (proj2 (Z.leb_le 0 (col + 1))) by lia.
      fin3.
    + rewrite (proj2 (Z.leb_le 0 (col - 1))), (proj2 (Z.ltb_ge (col + 1) w)), (proj2 (Z.ltb_lt (col - 1) w)) by lia. rewrite andb_false_r.
      fin3.
    + rewrite (proj2 (Z.leb_le 0 (col - 1))), (proj2 (Z.ltb_lt (col + 1) w)), (proj2 (Z.ltb_lt (col - 1) w)), (proj2 (Z.leb_le 0 (col + 1))) by lia.
      fin3.
Qed.

Lemma blur_map vertical v : blur avg vertical w h v = map (value_at vertical v) (zrange 0 sz).
Proof.
  unfold blur. assert (G : forall n, 0 <= n -> flat_map (fun y => map (fun x => avg (map (cell w v) (three vertical w h x y))) (zrange 0 w)) (zrange 0 n) =
     map (value_at vertical v) (zrange 0 (n * w))); [|apply G; lia].
  intros n Hn. pattern n. apply natlike_ind; auto.
  intros k Hk IH. unfold Z.succ. rewrite zrange_snoc by lia. rewrite flat_map_app, IH. cbn [flat_map]. rewrite app_nil_r.
  replace ((k + 1) * w) with (k * w + w) by lia. rewrite (zrange_app 0 (k * w) (k * w + w)) by nia. rewrite map_app. f_equal.
  assert (Z1 : zrange (k * w) (k * w + w) = map (fun x => k * w + x) (zrange 0 w)).
  { unfold zrange. replace (k * w + w - k * w) with (w - 0) by lia. generalize (Z.to_nat (w - 0)). intros m.
    replace (k * w) with (k * w + 0) at 1 by lia. generalize 0. induction m as [|m IHm]; intros a; cbn [zseq map]; auto.
    f_equal. rewrite <- IHm. f_equal. lia. }
  rewrite Z1, map_map. apply map_ext_in. intros x Ix. apply in_zrange in Ix. unfold value_at.
  rewrite Z.add_comm, Z.mod_add, Z.div_add, Z.mod_small, Z.div_small by lia. reflexivity.
Qed.
Lemma blur_length vertical v : Z.of_nat (length (blur avg vertical w h v)) = sz.
Proof. rewrite blur_map, map_length, zrange_length. nia. Qed.
Lemma blur_bounds vertical v lo hi : u16s v -> Z.of_nat (length v) = sz -> (forall z, In z v -> lo <= z <= hi) ->
  forall z, In z (blur avg vertical w h v) -> lo <= z <= hi.
Proof.
  intros U L B z Iz. rewrite blur_map in Iz. apply in_map_iff in Iz. destruct Iz as (i & <- & Ii). apply in_zrange in Ii.
  apply value_bounds; auto.
Qed.
Lemma blur_u16 vertical v : u16s v -> Z.of_nat (length v) = sz -> u16s (blur avg vertical w h v).
Proof. intros U L. apply Forall_forall. intros z Iz. apply (blur_bounds vertical v 0 65535); auto. unfold u16s in U. now rewrite Forall_forall in U. Qed.

Lemma smooth_ok vertical input output : Z.of_nat (length input) = sz -> Z.of_nat (length output) = sz -> u16s input ->
  exists t, smooth avg vertical w h input output = Ok (blur avg vertical w h input, t) /\ tracked (blur avg vertical w h input) t.
Proof.
  intros L Lo U. unfold smooth.
  assert (UV : forall i, 0 <= i < sz -> 0 <= value_at vertical input i <= 65535).
  { intros i Hi. apply value_bounds; auto. unfold u16s in U. now rewrite Forall_forall in U. }
  match goal with |- context[for_up 0 h _ ?s0] => destruct (raster_loop (fun i (s : Z * list Z * (Z * Z * Z)) =>
     let '(index, out, t) := s in index = i /\ len out = sz /\ (forall j, 0 <= j < i -> at_ out j = value_at vertical input j) /\
       tracked (map (value_at vertical input) (zrange 0 i)) t)
    (fun row col s => let '(index, output, t) := s in
           l <- (if vertical then under input index row h w else under input index col w 1) ;;
           let value := u16 (avg l) in
           output <- wr output index value ;;
           Ok (index + 1, output, track index value t)) w h s0) as (s & E & Q) end; [lia|lia| | |].
  - split; auto. split; [exact Lo|]. split; [lia|]. rewrite zrange_nil by lia. left. auto.
  - intros row col [[index out] t] Hr Hc (-> & Lb & P & T).
    assert (Hi : 0 <= row * w + col < sz) by nia.
    rewrite read_ok by auto. cbn [bind].
    assert (EV : avg (map (cell w input) (three vertical w h col row)) = value_at vertical input (row * w + col)).
    { unfold value_at. rewrite Z.add_comm, Z.mod_add, Z.div_add, Z.mod_small, Z.div_small by lia. reflexivity. }
    rewrite EV. set (i := row * w + col) in *. clearbody i. specialize (UV i Hi) as UVi.
    unfold u16. rewrite Z.mod_small by lia. rewrite wr_in by lia. cbn [bind]. eexists. split; [reflexivity|].
    split; auto. split; [now rewrite len_upd|]. split.
    + intros j Hj. rewrite at_upd by lia. destruct (Z.eqb_spec j i) as [->|N]; [auto|apply P; lia].
    + rewrite zrange_snoc, map_app by lia. cbn [map].
      pose proof (tracked_snoc (map (value_at vertical input) (zrange 0 i)) t (value_at vertical input i)) as TS. rewrite map_length, zrange_length in TS.
      replace (Z.of_nat (Z.to_nat (i - 0))) with i in TS by lia. apply TS; auto.
      apply Forall_forall. intros z Iz. apply in_map_iff in Iz. destruct Iz as (j & <- & Ij). apply in_zrange in Ij. apply UV; lia.
  - match type of E with ?l = _ => match goal with |- context[for_up 0 h ?f ?s0] => change (for_up 0 h f s0) with l end end.
    rewrite E. cbn [bind]. destruct s as [[index out] t]. destruct Q as (-> & Lb & P & T).
    rewrite blur_map. exists t. split; auto. do 2 f_equal.
    apply at_ext; [unfold len in *; rewrite map_length, zrange_length; nia|]. intros j Hj. unfold len in Lb, Hj.
    rewrite P by lia. unfold at_.
    rewrite (nth_indep _ 0 (value_at vertical input 0)) by (rewrite map_length, zrange_length; lia).
    rewrite map_nth. unfold zrange. rewrite zseq_nth by lia. f_equal. lia.
Qed.

Lemma blurred_ok v n : u16s v -> Z.of_nat (length v) = sz ->
  u16s (blurred avg w h n v) /\ Z.of_nat (length (blurred avg w h n v)) = sz.
Proof.
  intros U L. induction n as [|n [IU IL]]; [auto|]. cbn [blurred]. split; [apply blur_u16; auto|apply blur_length].
Qed.

Lemma rounds_ok v fuel : forall i vec buffer t, u16s v -> Z.of_nat (length v) = sz ->
  Z.of_nat (length vec) = sz -> Z.of_nat (length buffer) = sz ->
  (if Nat.even i then buffer else vec) = blurred avg w h i v -> (i = 0%nat -> vec = v) ->
  tracked (blurred avg w h i v) t -> (forall j, (j < i)%nat -> minima (blurred avg w h j v) > 1) ->
  exists k vec' buffer' t', rounds avg fuel (Z.of_nat i) w h vec buffer t = Ok (Z.of_nat k, vec', buffer', t') /\
    (i <= k <= i + fuel)%nat /\ Z.of_nat (length vec') = sz /\ Z.of_nat (length buffer') = sz /\
    (if Nat.even k then buffer' else vec') = blurred avg w h k v /\ (k = 0%nat -> vec' = v) /\
    tracked (blurred avg w h k v) t' /\ (forall j, (j < k)%nat -> minima (blurred avg w h j v) > 1) /\
    ((k < i + fuel)%nat -> minima (blurred avg w h k v) <= 1).
Proof.
  induction fuel as [|fuel IH]; intros i vec buffer t U L Lv Lb EB E0 T M; destruct t as [[mi mv] n]; cbn [rounds].
  - exists i, vec, buffer, (mi, mv, n). destruct (n >? 1); (split; [reflexivity|]); repeat split; auto; try lia.
  - destruct (blurred_ok v i U L) as [BU BL].
    assert (Ne : blurred avg w h i v <> []) by (intros C; rewrite C in BL; cbn in BL; nia).
    pose proof (tracked_minima _ _ T Ne) as TM. cbn beta iota in TM. destruct TM as [_ TM].
    rewrite Z.gtb_ltb. destruct (Z.ltb_spec 1 n) as [N1|N1].
    + assert (EV : Z.even (Z.of_nat i) = Nat.even i).
      { clear. induction i as [|i IHi]; auto. rewrite Nat2Z.inj_succ, Z.even_succ, Nat.even_succ, <- Z.negb_even, <- Nat.negb_even. now rewrite IHi. }
      assert (VE : negb (Z.of_nat i <? 5) = Nat.leb 5 i).
      { destruct (Z.ltb_spec (Z.of_nat i) 5), (Nat.leb_spec 5 i); auto; lia. }
      rewrite EV, VE. destruct (Nat.even i) eqn:Ei.
      * rewrite EB. destruct (smooth_ok (Nat.leb 5 i) (blurred avg w h i v) vec) as (t' & Es & Ts); auto.
        rewrite Es. cbn [bind fst snd]. replace (Z.of_nat i + 1) with (Z.of_nat (S i)) by lia.
        destruct (IH (S i) (blur avg (Nat.leb 5 i) w h (blurred avg w h i v)) (blurred avg w h i v) t') as (k & vec' & buffer' & t'' & Er & Hk & R); auto.
        -- apply blur_length.
        -- rewrite Nat.even_succ, <- Nat.negb_even, Ei. reflexivity.
        -- discriminate.
        -- intros j Hj. destruct (Nat.eq_dec j i) as [->|Nj]; [lia|apply M; lia].
        -- exists k, vec', buffer', t''. split; [exact Er|]. split; [lia|]. destruct R as (R1 & R2 & R3 & R4 & R5 & R6 & R7). repeat (split; auto). intros Hk'. apply R7. lia.
      * rewrite EB. destruct (smooth_ok (Nat.leb 5 i) (blurred avg w h i v) buffer) as (t' & Es & Ts); auto.
        rewrite Es. cbn [bind fst snd]. replace (Z.of_nat i + 1) with (Z.of_nat (S i)) by lia.
        destruct (IH (S i) (blurred avg w h i v) (blur avg (Nat.leb 5 i) w h (blurred avg w h i v)) t') as (k & vec' & buffer' & t'' & Er & Hk & R); auto.
        -- apply blur_length.
        -- rewrite Nat.even_succ, <- Nat.negb_even, Ei. reflexivity.
        -- discriminate.
        -- intros j Hj. destruct (Nat.eq_dec j i) as [->|Nj]; [lia|apply M; lia].
        -- exists k, vec', buffer', t''. split; [exact Er|]. split; [lia|]. destruct R as (R1 & R2 & R3 & R4 & R5 & R6 & R7). repeat (split; auto). intros Hk'. apply R7. lia.
    + exists i, vec, buffer, (mi, mv, n). split; [reflexivity|]. repeat split; auto; try lia.
Qed.

Lemma select_ok v : u16s v -> Z.of_nat (length v) = sz ->
  exists k mi n, select_best avg w h v = Ok (mi, n, blurred avg w h k v) /\ (k <= 6)%nat /\
    first_min (blurred avg w h k v) mi /\ n = minima (blurred avg w h k v) /\
    (forall j, (j < k)%nat -> minima (blurred avg w h j v) > 1) /\ ((k < 6)%nat -> n <= 1).
Proof.
  intros U L. unfold select_best. destruct (copy_scan_ok v L U) as (t & E & T). rewrite E. cbn [bind fst snd].
  destruct (rounds_ok v 6 0 v v t) as (k & vec' & buffer' & t' & Er & Hk & R1 & R2 & R3 & R4 & R5 & R6 & R7); auto; [lia|].
  change (Z.of_nat 0) with 0 in Er. rewrite Er. cbn [bind].
  destruct (blurred_ok v k U L) as [BU BL].
  assert (Ne : blurred avg w h k v <> []) by (intros C; rewrite C in BL; cbn in BL; nia).
  pose proof (tracked_minima _ _ R5 Ne) as TM. destruct t' as [[mi mv] n]. destruct TM as [F En].
  exists k, mi, n.
  assert (EV : (0 <? Z.of_nat k) && (Z.rem (Z.of_nat k) 2 =? 0) = negb (Nat.eqb k 0) && Nat.even k).
  { assert (K : (k = 0 \/ k = 1 \/ k = 2 \/ k = 3 \/ k = 4 \/ k = 5 \/ k = 6)%nat) by lia.
    destruct K as [->|[->|[->|[->|[->|[->| ->]]]]]]; reflexivity. }
  rewrite EV.
  assert (X : (if negb (Nat.eqb k 0) && Nat.even k
          then for_up 0 sz (fun i v => b <- rd buffer' i ;; wr v i b) vec' else Ok vec') = Ok (blurred avg w h k v)).
  { destruct (Nat.even k) eqn:Ek.
    - destruct (Nat.eqb_spec k 0) as [->|Nk]; cbn [negb andb]; [rewrite R4 by auto; reflexivity|].
      destruct (for_up_inv (fun i u => len u = sz /\ forall j, 0 <= j < i -> at_ u j = at_ buffer' j) (fun i v => b <- rd buffer' i ;; wr v i b) 0 sz vec') as (u & Eu & Lu & Pu); [nia| | |].
      + split; [exact R1|lia].
      + intros i u Hi [Lu Pu]. rewrite rd_in by (unfold len; lia). cbn [bind]. rewrite wr_in by lia. eexists. split; [reflexivity|].
        split; [now rewrite len_upd|]. intros j Hj. rewrite at_upd by lia. destruct (Z.eqb_spec j i) as [->|]; auto. apply Pu. lia.
      + rewrite Eu. f_equal. rewrite <- R3. apply at_ext; [unfold len in *; lia|]. intros j Hj. apply Pu. lia.
    - rewrite andb_false_r. now rewrite R3. }
  rewrite X. cbn [bind]. split; [reflexivity|]. split; [lia|]. split; auto. split; auto. split; auto. intros K. rewrite En. apply R7. lia.
Qed.
End V.
