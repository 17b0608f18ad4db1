(** Proofs about transforms and resampling of disparity maps. *)
From Coq Require Import List ZArith QArith Qround Qabs Bool Lia Lqa.
From Verif Require Import Lib.Base Lib.Img BBox.Box2 Disp.Model Disp.Spec Disp.MProofs Disp.KProofs.
Import ListNotations.
Open Scope Q_scope.

Lemma round_ok x : let r := inject_Z (roundq x) in Qabs (r - x) <= 1 # 2 /\ (Qabs (r - x) == 1 # 2 -> Qabs x <= Qabs r).
Proof.
  cbv zeta. unfold roundq. destruct (ltqP x 0) as [L|L].
  - rewrite inject_Z_opp. pose proof (fl (- x + (1 # 2))) as [A B]. set (n := inject_Z (Qfloor (- x + (1 # 2)))) in *.
    assert (N0 : 0 <= n). { unfold n. change 0 with (inject_Z 0). apply inj_le. apply fl_ge. change (inject_Z 0) with 0. lra. }
    clearbody n. split; [apply Qabs_Qle_condition; lra|]. rewrite (Qabs_neg x), (Qabs_neg (- n)) by lra.
    apply Qabs_case; intros; lra.
  - pose proof (fl (x + (1 # 2))) as [A B]. set (n := inject_Z (Qfloor (x + (1 # 2)))) in *.
    assert (N0 : 0 <= n). { unfold n. change 0 with (inject_Z 0). apply inj_le. apply fl_ge. change (inject_Z 0) with 0. lra. }
    clearbody n. split; [apply Qabs_Qle_condition; lra|]. rewrite (Qabs_pos x), (Qabs_pos n) by lra.
    apply Qabs_case; intros; lra.
Qed.

Definition moved (do_round : bool) (sub : box) (forward : Q * Q -> Q * Q) (m : img px) (x y : Z) : px :=
  let d := pix m x y in
  if valid d then
    let bx := inject_Z (x0 sub + x) in let by_ := inject_Z (y0 sub + y) in
    let '(tx, ty) := forward (bx + dx d, by_ + dy d) in
    let diff := (tx - bx, ty - by_) in
    (true, if do_round then (inject_Z (roundq (fst diff)), inject_Z (roundq (snd diff))) else diff)
  else no_px.

Lemma transform_ok do_round sub forward m : bw sub = icols m -> bh sub = irows m -> (0 <= icols m)%Z -> (0 <= irows m)%Z ->
  exists out, transform_region do_round sub forward m = Ok out /\ same_size out m /\
    forall x y, inside m x y -> pix out x y = moved do_round sub forward m x y.
Proof.
  intros W H C R. unfold transform_region. rewrite W, H, !Z.eqb_refl. cbn [andb negb].
  destruct (for_up_inv (fun x (o : img px) => same_size o m /\ (forall x' y', inside m x' y' -> pix o x' y' = if (x' <? x)%Z then moved do_round sub forward m x' y' else no_px))
    (fun x out => for_up 0 (irows m) (fun y out =>
      d <- get m x y ;;
      if negb (valid d) then Ok out else
      let bx := inject_Z (x0 sub + x) in let by_ := inject_Z (y0 sub + y) in
      let '(tx, ty) := forward (bx + dx d, by_ + dy d) in
      let diff := (tx - bx, ty - by_) in
      let diff := if do_round then (inject_Z (roundq (fst diff)), inject_Z (roundq (snd diff))) else diff in
      put out x y (true, diff)) out) 0 (icols m) (Img (icols m) (irows m) (fun _ _ => no_px))) as (out & E & SS & P); auto.
  - split; [split; reflexivity|]. intros x' y' [I _]. cbn [pix]. destruct (Z.ltb_spec x' 0); [lia|auto].
  - intros x o [X1 X2] [SO PO].
    destruct (for_up_inv (fun y (o : img px) => same_size o m /\ (forall x' y', inside m x' y' -> pix o x' y' =
        if ((x' <? x) || ((x' =? x) && (y' <? y)))%Z then moved do_round sub forward m x' y' else no_px))
      (fun y out =>
      d <- get m x y ;;
      if negb (valid d) then Ok out else
      let bx := inject_Z (x0 sub + x) in let by_ := inject_Z (y0 sub + y) in
      let '(tx, ty) := forward (bx + dx d, by_ + dy d) in
      let diff := (tx - bx, ty - by_) in
      let diff := if do_round then (inject_Z (roundq (fst diff)), inject_Z (roundq (snd diff))) else diff in
      put out x y (true, diff)) 0 (irows m) o) as (o' & E & SS & P); auto.
    + split; auto. intros x' y' I. rewrite PO by auto. destruct I. destruct (Z.ltb_spec x' x), (Z.eqb_spec x' x), (Z.ltb_spec y' 0); cbn [orb andb]; auto; lia.
    + intros y o1 [Y1 Y2] [S1 P1]. rewrite get_in by (split; lia). cbn [bind].
      assert (MV : forall x' y', inside m x' y' -> ~ (x' = x /\ y' = y) ->
        ((x' <? x) || ((x' =? x) && (y' <? y + 1)))%Z = ((x' <? x) || ((x' =? x) && (y' <? y)))%Z).
      { intros x' y' _ N. destruct (Z.ltb_spec x' x), (Z.eqb_spec x' x), (Z.ltb_spec y' y), (Z.ltb_spec y' (y + 1)); cbn [orb andb]; auto; lia. }
      assert (HE : ((x <? x) || ((x =? x) && (y <? y + 1)))%Z = true).
      { rewrite Z.eqb_refl. destruct (Z.ltb_spec y (y + 1)); [apply orb_true_r|lia]. }
      assert (HF : ((x <? x) || ((x =? x) && (y <? y)))%Z = false).
      { rewrite !Z.ltb_irrefl. apply andb_false_r. }
      unfold moved in *. destruct (valid (pix m x y)) eqn:V; cbn [negb].
      * cbv zeta. destruct (forward (inject_Z (x0 sub + x) + dx (pix m x y), inject_Z (y0 sub + y) + dy (pix m x y))) as [tx ty] eqn:F.
        destruct S1 as [SA SB].
        destruct (put_in o1 x y (true, if do_round then (inject_Z (roundq (fst (tx - inject_Z (x0 sub + x), ty - inject_Z (y0 sub + y)))), inject_Z (roundq (snd (tx - inject_Z (x0 sub + x), ty - inject_Z (y0 sub + y))))) else (tx - inject_Z (x0 sub + x), ty - inject_Z (y0 sub + y)))) as (o2 & E2 & A & B & G & K).
        { split; lia. }
        exists o2. split; [exact E2|]. split; [split; congruence|]. intros x' y' I.
        destruct (Z.eq_dec x' x) as [->|NX]; [destruct (Z.eq_dec y' y) as [->|NY]|].
        -- rewrite HE, G. cbv zeta. rewrite V, F. reflexivity.
        -- rewrite K by (right; auto). rewrite P1, MV by (auto; lia). reflexivity.
        -- rewrite K by (left; auto). rewrite P1, MV by (auto; lia). reflexivity.
      * exists o1. split; auto. split; auto. intros x' y' I.
        destruct (Z.eq_dec x' x) as [->|NX]; [destruct (Z.eq_dec y' y) as [->|NY]|].
        -- rewrite HE, P1, HF by auto. cbv zeta. rewrite V. reflexivity.
        -- rewrite P1, MV by (auto; lia). reflexivity.
        -- rewrite P1, MV by (auto; lia). reflexivity.
    + exists o'. split; auto. split; auto. intros x' y' I. rewrite P by auto. destruct I as [I1 I2].
      destruct (Z.ltb_spec x' x), (Z.eqb_spec x' x), (Z.ltb_spec y' (irows m)), (Z.ltb_spec x' (x + 1)); cbn [orb andb]; auto; lia.
  - exists out. split; auto. split; auto. intros x y I. rewrite P by auto. destruct I. destruct (Z.ltb_spec x (icols m)); [auto|lia].
Qed.

(** ** Half size *)
Definition step (s : Q * Q * Q) (e : px * Q) : Q * Q * Q :=
  let '(sx, sy, n) := s in if valid (fst e) then (sx + snd e * dx (fst e), sy + snd e * dy (fst e), n + snd e) else (sx, sy, n).
Lemma sub_add_ok m i j w s : nonempty m -> sub_add m i j w (Ok s) = Ok (step s (edge m i j, inject_Z w)).
Proof. intros N. unfold sub_add. cbn [bind]. rewrite extended_ok by auto. cbn [bind]. destruct s as [[a b] n]. unfold step. cbn [fst snd]. destruct (valid (edge m i j)); reflexivity. Qed.
Lemma step_filter l : forall s, fold_left step l s = fold_left step (filter (fun e => valid (fst e)) l) s.
Proof.
  induction l as [|e l IH]; intros s; cbn [fold_left filter]; auto. destruct (valid (fst e)) eqn:V; cbn [fold_left]; auto. rewrite <- IH.
  unfold step at 2. destruct s as [[a b] n]. rewrite V. auto.
Qed.
Lemma step_sum l : (forall e, In e l -> valid (fst e) = true) -> forall a b n, exists x y k, fold_left step l (a, b, n) = (x, y, k) /\
  x == a + sumq (map (fun e => snd e * dx (fst e)) l) /\ y == b + sumq (map (fun e => snd e * dy (fst e)) l) /\ k == n + sumq (map snd l).
Proof.
  induction l as [|e l IH]; intros V a b n; cbn [fold_left map].
  - exists a, b, n. unfold sumq. cbn [fold_right]. repeat split; lra.
  - unfold step at 2. rewrite (V e) by (left; auto).
    destruct (IH ltac:(intros; apply V; right; auto) (a + snd e * dx (fst e)) (b + snd e * dy (fst e)) (n + snd e)) as (x & y & k & E & X & Y & K).
    exists x, y, k. rewrite E. unfold sumq in *. cbn [fold_right]. repeat split; [rewrite X|rewrite Y|rewrite K]; lra.
Qed.
Lemma neighbour_weights m i j e : In e (neighbours m i j) -> valid (fst e) = true /\ 0 < snd e.
Proof.
  unfold neighbours. rewrite filter_In. intros [I V]. split; auto. apply in_map_iff in I as (((a & b) & w) & <- & I). cbn [snd].
  change 0 with (inject_Z 0). apply inj_lt. cbn in I. repeat (destruct I as [I|I]; [injection I as <- <- <-; lia|]). destruct I.
Qed.
Lemma sum_weights (l : list (px * Q)) : (forall e, In e l -> 0 < snd e) -> l <> [] -> 0 < sumq (map snd l).
Proof.
  intros H N. destruct l as [|e l]; [congruence|]. unfold sumq. cbn [map fold_right]. pose proof (H e (or_introl eq_refl)).
  assert (K : 0 <= sumq (map snd l)) by (apply sumq_nonneg; intros x I; apply in_map_iff in I as (z & <- & I); pose proof (H z (or_intror I)); lra).
  unfold sumq in K. lra.
Qed.

Lemma subsample_ok m i j : nonempty m ->
  match neighbours m i j with
  | [] => subsample_at m i j = Ok no_px
  | _ => exists p, subsample_at m i j = Ok p /\ pxeq p (true, (weighted dx (neighbours m i j) * (1 # 2), weighted dy (neighbours m i j) * (1 # 2)))
  end.
Proof.
  intros N. unfold subsample_at. cbv zeta. rewrite !sub_add_ok by auto. cbn [bind].
  pose proof (step_sum (neighbours m i j)) as ST.
  assert (W : forall e, In e (neighbours m i j) -> valid (fst e) = true /\ 0 < snd e) by apply neighbour_weights.
  destruct (ST ltac:(intros; apply W; auto) 0 0 0) as (x & y & k & E & X & Y & K). clear ST.
  match goal with |- context[step ?a (edge m (i * 2 + 1)%Z (j * 2 - 1)%Z, inject_Z 2)] => assert (ET : step a (edge m (i * 2 + 1)%Z (j * 2 - 1)%Z, inject_Z 2) = fold_left step (neighbours m i j) (0, 0, 0)) end.
  { unfold neighbours. rewrite <- step_filter. cbn [weights map fold_left]. replace (2 * i)%Z with (i * 2)%Z by lia. replace (2 * j)%Z with (j * 2)%Z by lia.
    rewrite !Z.add_0_r. reflexivity. }
  rewrite ET, E. clear ET.
  destruct (neighbours m i j) as [|e l] eqn:EN.
  - cbn [map sumq fold_right] in K. unfold sumq in K. cbn [fold_right] in K. destruct (ltqP 0 k); auto. lra.
  - pose proof (sum_weights (e :: l) ltac:(intros; apply W; auto) ltac:(discriminate)) as P.
    destruct (ltqP 0 k) as [L|L]; [|lra]. eexists. split; [reflexivity|].
    unfold pxeq, valid, dx, dy. cbn [fst snd]. fold dx dy. split; [auto|]. unfold weighted.
    assert (NZ : ~ k == 0) by lra. assert (NS : ~ sumq (map snd (e :: l)) == 0) by lra.
    set (s := sumq (map snd (e :: l))) in *. rewrite Qplus_0_l in K, X, Y.
    change (fun e0 : px * Q => snd e0 * fst (snd (fst e0))) with (fun e0 : px * Q => snd e0 * dx (fst e0)).
    change (fun e0 : px * Q => snd e0 * snd (snd (fst e0))) with (fun e0 : px * Q => snd e0 * dy (fst e0)).
    rewrite K, X, Y. clearbody s. split; field; auto.
Qed.

Lemma weighted_bounds f l lo hi : l <> [] -> (forall e, In e l -> 0 < snd e) -> (forall e, In e l -> lo <= f (fst e) /\ f (fst e) <= hi) ->
  lo <= weighted f l /\ weighted f l <= hi.
Proof.
  intros N W B. pose proof (sum_weights l W N) as P. unfold weighted.
  assert (H : lo * sumq (map snd l) <= sumq (map (fun e => snd e * f (fst e)) l) /\ sumq (map (fun e => snd e * f (fst e)) l) <= hi * sumq (map snd l)).
  { clear N P. unfold sumq. induction l as [|e l IH]; cbn [map fold_right]; [lra|].
    destruct IH as [I1 I2]; [intros; apply W; right; auto|intros; apply B; right; auto|].
    pose proof (W e (or_introl eq_refl)). destruct (B e (or_introl eq_refl)). split; nra. }
  split; [apply Qle_shift_div_l|apply Qle_shift_div_r]; auto; apply H.
Qed.
Lemma center_neighbour m i j : valid (edge m (2 * i) (2 * j)) = true -> neighbours m i j <> [].
Proof.
  intros V E. assert (I : In (edge m (2 * i)%Z (2 * j)%Z, 10) (neighbours m i j)); [|rewrite E in I; destruct I].
  unfold neighbours. apply filter_In. split; auto. apply in_map_iff. exists (0, 0, 10)%Z. split; [|left; auto]. rewrite !Z.add_0_r. reflexivity.
Qed.
Lemma neighbour_edge m i j e : In e (neighbours m i j) -> exists x y, fst e = edge m x y.
Proof. unfold neighbours. rewrite filter_In. intros [I _]. apply in_map_iff in I as (((a & b) & w) & <- & _). cbn [fst]. eauto. Qed.
Lemma edge_pix {A} (m : img A) i j : nonempty m -> exists x y, inside m x y /\ edge m i j = pix m x y.
Proof. intros [H V]. exists (nearest (icols m) i), (nearest (irows m) j). split; auto. unfold nearest. split; lia. Qed.
