(* C59: local costs, choice of disparities and the whole of semi-global matching. *)
From Coq Require Import ZArith List Bool Lia.
From Verif Require Import Lib.Base Lib.Lists ImgMem.Model ImgMem.Spec Lib.Img Sgm.Model Sgm.Spec Sgm.Mem Sgm.Proofs Sgm.Pass Sgm.Accum Sgm.Props
  SgmBox.Spec SgmBox.Model SgmBox.Props SgmSel.Model SgmSel.Spec SgmSel.Vec SgmSel.Cost SgmSel.View.
From Verif Require Census.Spec.
Import ListNotations.
Local Open Scope Z_scope.

(* The cost buffer.  The entry of every pixel and every disparity of its box counts
   the comparisons which come out differently in the window around the pixel and the
   window around its target. *)
Theorem local_costs g kind t k left right starts main buf : sgm_ok g -> kind = Census \/ kind = Ternary -> 0 <= t ->
  (forall c r, 0 <= c < ocols g -> 0 <= r < orows g -> Census.Spec.room left (Census.Spec.radius k) (c + mincol g) (r + minrow g) /\
     forall d, in_box (range g) d -> Census.Spec.room right (Census.Spec.radius k) (c + mincol g + fst d) (r + minrow g + snd d)) ->
  calc_main_buf_size g = Ok (starts, main) -> Z.of_nat (length buf) = main -> costs_ok buf ->
  exists cost,
    compute_costs kind t (kernel_of k) left right (minrow g) (minrow g + orows g - 1) (mincol g) (mincol g + ocols g - 1) (bnd g) buf = Ok cost /\
    Z.of_nat (length cost) = main /\ costs_ok cost /\
    forall c r d, 0 <= c < ocols g -> 0 <= r < orows g -> in_box (pix (bnd g) c r) d ->
      nth (Z.to_nat (pix starts c r + pos (pix (bnd g) c r) d)) cost 0 = match_cost kind t k left right (c + mincol g) (r + minrow g) d.
Proof. intros G K. apply local_costs_ok; auto. destruct K; congruence. Qed.
Print Assumptions local_costs.

(* Other windows and other cost types are refused. *)
Theorem other_windows_refused kind t kernel left right r0 r1 c0 c1 bn buf :
  kind = MeanDiff \/ ~ In kernel [3; 5; 7; 9] ->
  compute_costs kind t kernel left right r0 r1 c0 c1 bn buf = Throw NoImplErr.
Proof.
  intros [->|N]; [reflexivity|]. cbn [In] in N. unfold compute_costs.
  rewrite (proj2 (Z.eqb_neq kernel 3)), (proj2 (Z.eqb_neq kernel 5)), (proj2 (Z.eqb_neq kernel 7)), (proj2 (Z.eqb_neq kernel 9)) by lia.
  destruct kind; reflexivity.
Qed.
Print Assumptions other_windows_refused.

(* The neighbours which count with the ternary transform of 5 by 5 pixels. *)
Theorem five_by_five_neighbours dx dy : In (dx, dy) (used_pattern Census.Spec.S5) <->
  (-2 <= dx <= 2 /\ -2 <= dy <= 2 /\ (dx, dy) <> (0, 0)) /\ (0 <= dy \/ (dy = -1 /\ 1 <= dx)).
Proof.
  split.
  - intros I. cut (forallb (fun p : Z * Z => (-2 <=? fst p) && (fst p <=? 2) && (-2 <=? snd p) && (snd p <=? 2) && negb ((fst p =? 0) && (snd p =? 0)) &&
       ((0 <=? snd p) || ((snd p =? -1) && (1 <=? fst p)))) (used_pattern Census.Spec.S5) = true); [|reflexivity].
    rewrite forallb_forall. intros F. specialize (F _ I). cbn [fst snd] in F.
    rewrite !andb_true_iff, orb_true_iff, andb_true_iff, negb_true_iff, andb_false_iff, !Z.leb_le, Z.eqb_eq, !Z.eqb_neq in F.
    split; [|lia]. split; [lia|]. split; [lia|]. intros E. injection E as -> ->. lia.
  - intros [(X & Y & N) C]. assert (HX : dx = -2 \/ dx = -1 \/ dx = 0 \/ dx = 1 \/ dx = 2) by lia.
    assert (HY : dy = -1 \/ dy = 0 \/ dy = 1 \/ dy = 2) by lia.
    destruct HX as [->|[->|[->|[->| ->]]]], HY as [->|[->|[->| ->]]]; try lia; try congruence; vm_compute; tauto.
Qed.
Print Assumptions five_by_five_neighbours.

(* The ternary transform of 5 by 5 pixels has two bits for each of 24 neighbours, but
   fill_costs_census5x5 stores the codes in 32 bit pixels (SGM.cc:1786-1797).  Costs
   of 0 are found for windows which differ in eight neighbours. *)
Definition dark : img Z := Img 5 5 (fun _ _ => 0).
Definition bright_top : img Z := Img 5 5 (fun x y => if (y =? 0) || ((y =? 1) && (x <=? 2)) then 100 else 0).
Theorem ternary_5x5_uses_all_neighbours_refuted : ~ (forall t left right cost,
  Census.Spec.room left 2 2 2 -> Census.Spec.room right 2 2 2 ->
  compute_costs Ternary t 5 left right 2 2 2 2 (Img 1 1 (fun _ _ => Box 0 0 0 0)) [0] = Ok cost ->
  item cost 0 = zsum (map (fun o => Z.abs (Census.Spec.class t left 2 2 o - Census.Spec.class t right 2 2 o)) (Census.Spec.ternary_pattern Census.Spec.S5))).
Proof.
  intros H. specialize (H 5 dark bright_top [0]).
  assert (R : Census.Spec.room dark 2 2 2 /\ Census.Spec.room bright_top 2 2 2) by (unfold Census.Spec.room; cbn; lia).
  specialize (H (proj1 R) (proj2 R) ltac:(vm_compute; reflexivity)). vm_compute in H. discriminate.
Qed.
Print Assumptions ternary_5x5_uses_all_neighbours_refuted.

(* The choice within a vector: smoothed as long as there are several minima, at most
   six times, then the first minimum. *)
Theorem best_disparity avg w h v : mean_ok avg -> 0 < w -> 0 < h -> u16s v -> Z.of_nat (length v) = h * w ->
  exists t i n, select_best avg w h v = Ok (i, n, blurred avg w h t v) /\ (t <= 6)%nat /\
    first_min (blurred avg w h t v) i /\ n = minima (blurred avg w h t v) /\
    (forall s, (s < t)%nat -> minima (blurred avg w h s v) > 1) /\ ((t < 6)%nat -> n = 1).
Proof.
  intros AV W H U L. destruct (select_ok avg AV w h W H v U L) as (t & i & n & E & T & F & N & M & K).
  exists t, i, n. repeat (split; auto). intros X. pose proof (minima_pos _ _ F). specialize (K X). lia.
Qed.
Print Assumptions best_disparity.

(* A unique minimum is chosen and the vector left as it is. *)
Theorem unique_minimum_kept avg w h v i : mean_ok avg -> 0 < w -> 0 < h -> u16s v -> Z.of_nat (length v) = h * w ->
  0 <= i < h * w -> (forall j, 0 <= j < h * w -> j <> i -> item v i < item v j) ->
  select_best avg w h v = Ok (i, 1, v).
Proof.
  intros AV W H U L Hi M. destruct (best_disparity avg w h v AV W H U L) as (t & j & n & E & T & F & N & Ms & K).
  assert (M1 : minima v = 1) by (apply (unique_minima v i); rewrite L; auto).
  assert (t = 0%nat) as ->. { destruct t; auto. specialize (Ms 0%nat ltac:(lia)). cbn [blurred] in Ms. lia. }
  cbn [blurred] in *. rewrite E, N, M1. assert (j = i) as ->; auto.
  destruct F as [Fj Fm]. specialize (Fm i ltac:(lia)). destruct (Z.eq_dec j i); auto. specialize (M j ltac:(lia) ltac:(auto)). lia.
Qed.
Print Assumptions unique_minimum_kept.

(* Smoothing stays between the least and the largest value. *)
Theorem smoothing_in_range avg w h t v lo hi : mean_ok avg -> 0 < w -> 0 < h -> u16s v -> Z.of_nat (length v) = h * w ->
  (forall z, In z v -> lo <= z <= hi) -> forall z, In z (blurred avg w h t v) -> lo <= z <= hi.
Proof.
  intros AV W H U L B. induction t as [|t IH]; [exact B|]. cbn [blurred].
  destruct (blurred_ok avg AV w h W H v t U L) as [BU BL]. apply blur_bounds; auto.
Qed.
Print Assumptions smoothing_in_range.

(* If all values are equal the first one is chosen. *)
Theorem equal_costs_first avg w h v z : mean_ok avg -> 0 < w -> 0 < h -> 0 <= z <= 65535 ->
  Z.of_nat (length v) = h * w -> (forall y, In y v -> y = z) ->
  select_best avg w h v = Ok (0, h * w, v).
Proof.
  intros AV W H Z0 L A.
  assert (U : u16s v) by (apply Forall_forall; intros y Iy; rewrite (A y Iy); auto).
  destruct (best_disparity avg w h v AV W H U L) as (t & j & n & E & T & F & N & Ms & K).
  destruct (blurred_ok avg AV w h W H v t U L) as [BU BL].
  assert (AB : forall y, In y (blurred avg w h t v) -> y = z).
  { intros y Iy. pose proof (smoothing_in_range avg w h t v z z AV W H U L) as S.
    assert (z <= y <= z); [|lia]. apply S; auto. intros q Iq. rewrite (A q Iq). lia. }
  assert (IT : forall l i, (forall y, In y l -> y = z) -> 0 <= i < Z.of_nat (length l) -> item l i = z).
  { intros l i Al Hi. apply Al. unfold item. apply nth_In. lia. }
  assert (EB : blurred avg w h t v = v).
  { apply at_ext; [unfold len; lia|]. intros i Hi. unfold len in Hi. change (item (blurred avg w h t v) i = item v i). rewrite !IT; auto; lia. }
  assert (ML : minima v = h * w).
  { unfold minima. replace (filter (fun z0 => forallb (fun y => z0 <=? y) v) v) with v; [exact L|].
    clear - A. assert (G : forall l, (forall y, In y l -> y = z) -> l = filter (fun z0 => forallb (fun y => z0 <=? y) v) l).
    { induction l as [|a l IHl]; intros Al; [reflexivity|]. cbn [filter]. rewrite (proj2 (forallb_forall _ _)); [now rewrite <- IHl by (intros y Iy; apply Al; right; auto)|].
      intros y Iy. rewrite (A y Iy), (Al a (or_introl eq_refl)). apply Z.leb_refl. }
    apply G, A. }
  rewrite EB in *. rewrite E, N, ML. assert (j = 0) as ->; auto.
  destruct F as [Fj Fm]. destruct (Z.eq_dec j 0); auto. destruct (Fm 0 ltac:(lia)) as [_ Fl]. specialize (Fl ltac:(lia)). rewrite !IT in Fl; auto; lia.
Qed.
Print Assumptions equal_costs_first.

(* With several minima the chosen disparity need not be one of them: of the costs
   0, 9, 0 the one of cost 9 is taken. *)
Theorem chosen_is_cheapest_refuted : forall avg, mean_ok avg ->
  ~ (forall w h v i n v', 0 < w -> 0 < h -> u16s v -> Z.of_nat (length v) = h * w ->
       select_best avg w h v = Ok (i, n, v') -> forall j, 0 <= j < h * w -> item v i <= item v j).
Proof.
  intros avg AV H.
  assert (U : u16s [0; 9; 0]) by (repeat constructor; lia).
  destruct (best_disparity avg 3 1 [0; 9; 0] AV ltac:(lia) ltac:(lia) U eq_refl) as (t & i & n & E & T & F & N & Ms & K).
  assert (B1 : blurred avg 3 1 1 [0; 9; 0] = [avg [0; 9]; avg [0; 9; 0]; avg [9; 0]]) by reflexivity.
  pose proof (AV [0; 9] ltac:(discriminate) ltac:(cbn; lia) ltac:(repeat constructor; lia)) as A1.
  pose proof (AV [9; 0] ltac:(discriminate) ltac:(cbn; lia) ltac:(repeat constructor; lia)) as A2.
  pose proof (AV [0; 9; 0] ltac:(discriminate) ltac:(cbn; lia) U) as A3.
  change (zsum [0; 9]) with 9 in A1. change (zsum [9; 0]) with 9 in A2. change (zsum [0; 9; 0]) with 9 in A3.
  cbn [length Z.of_nat Pos.of_succ_nat Pos.succ] in A1, A2, A3.
  set (a := avg [0; 9]) in *. set (b := avg [9; 0]) in *. set (c := avg [0; 9; 0]) in *.
  assert (A : c < a /\ c < b) by (clearbody a b c; lia).
  assert (M1 : minima (blurred avg 3 1 1 [0; 9; 0]) = 1).
  { rewrite B1. apply (unique_minima _ 1); [cbn; lia|]. cbn [length Z.of_nat Pos.of_succ_nat Pos.succ].
    intros j Hj Nj. assert (J : j = 0 \/ j = 2) by lia. destruct J as [-> | ->]; [change (c < a)|change (c < b)]; lia. }
  assert (M0 : minima (blurred avg 3 1 0 [0; 9; 0]) = 2) by reflexivity.
  assert (T1 : t = 1%nat).
  { destruct t as [|[|t]]; auto; [|specialize (Ms 1%nat ltac:(lia)); lia]. specialize (K ltac:(lia)). lia. }
  subst t. specialize (H 3 1 [0; 9; 0] i n _ ltac:(lia) ltac:(lia) U eq_refl E 0 ltac:(lia)).
  assert (i = 1) as ->.
  { rewrite B1 in F. destruct F as [Fi Fm]. cbn [length Z.of_nat Pos.of_succ_nat Pos.succ] in Fi, Fm. specialize (Fm 1 ltac:(lia)).
    change (item [a; c; b] 1) with c in Fm.
    assert (J : i = 0 \/ i = 1 \/ i = 2) by lia.
    destruct J as [-> | [-> | ->]]; auto; [change (item [a; c; b] 0) with a in Fm|change (item [a; c; b] 2) with b in Fm]; lia. }
  vm_compute in H. apply H. reflexivity.
Qed.
Print Assumptions chosen_is_cheapest_refuted.

(* The view of disparities: pixels without a box are invalid, the others get a
   disparity of their box.  Only the entries of a pixel decide about it. *)
Theorem disparity_view avg g starts main acc : mean_ok avg -> sgm_ok g -> calc_main_buf_size g = Ok (starts, main) ->
  Z.of_nat (length acc) = main -> u16s acc ->
  exists out acc', create_view avg g starts acc = Ok (out, acc') /\ icols out = ocols g /\ irows out = orows g /\
    Z.of_nat (length acc') = main /\
    forall c r, 0 <= c < ocols g -> 0 <= r < orows g -> let b := pix (bnd g) c r in
      exists v', chosen avg b (fun d => item acc (pix starts c r + pos b d)) (pix out c r) v' /\
        forall d, in_box b d -> item acc' (pix starts c r + pos b d) = item v' (pos b d).
Proof.
  intros AV G EC LA UA. destruct (calc_ok g G) as (s' & m' & E' & Ly & _). rewrite EC in E'. injection E' as <- <-.
  destruct (view_ok avg AV g G starts main Ly acc LA) as (out & acc' & E & V1 & V2 & V3 & V4).
  - intros p d Ip Id. change (0 <= item acc (pstart starts p + pos (pbox g p) d) <= 65535). apply item_u16; auto.
    destruct Ly as (_ & _ & L3 & _). specialize (L3 p Ip). pose proof (pos_range _ _ Id). unfold psize in L3. lia.
  - exists out, acc'. split; auto. split; auto. split; auto. split; auto. intros c r Hc Hr. exact (V4 (c, r) (conj Hc Hr)).
Qed.
Print Assumptions disparity_view.

Section Match.
Variables (avg : list Z -> Z) (g0 : sgm) (kind : cost_kind) (t : Z) (k : Census.Spec.size) (sbx sby : Z)
  (prev : option (img (option (Z * Z)))) (fits : img box -> bool) (lm rm : option (img Z)) (ev : sgm -> eval_fn)
  (cost0 : Z -> list Z) (left right : img Z).
Notation fr bn := (frame g0 (kernel_of k) left right bn).
Notation g1 := (fr (bnd g0)).
Hypothesis AV : mean_ok avg.
Hypothesis KD : kind = Census \/ kind = Ternary.
Hypothesis T0 : 0 <= t.
Hypothesis NX : mnx g0 <= 0 /\ mnx g0 <= mxx g0.
Hypothesis NY : mny g0 <= 0 /\ mny g0 <= mxy g0.
Hypothesis WD : 0 < ocols g1 /\ 0 < orows g1.
Hypothesis MF : mask_fits g1 lm rm.
Hypothesis PR : priors_reach g1 sbx sby prev.
Hypothesis SR : small_range g1.
Hypothesis P1 : 0 <= p1 g0 <= 7936.
Hypothesis P2 : 0 <= p2 g0 <= 7936.
Hypothesis EV : (forall g, ev g = evaluate_path g) \/ (forall g, ev g = evaluate_path_sse g).
Hypothesis C0 : forall n, 0 <= n -> Z.of_nat (length (cost0 n)) = n /\ costs_ok (cost0 n).

Lemma frame_fields bn : mnx (fr bn) = mnx g0 /\ mny (fr bn) = mny g0 /\ mxx (fr bn) = mxx g0 /\ mxy (fr bn) = mxy g0 /\
  p1 (fr bn) = p1 g0 /\ p2 (fr bn) = p2 g0 /\ bnd (fr bn) = bn /\ fr bn = with_boxes g1 bn /\ range (fr bn) = range g0 /\
  forall c r, 0 <= c < ocols (fr bn) -> 0 <= r < orows (fr bn) ->
    Census.Spec.room left (Census.Spec.radius k) (c + mincol (fr bn)) (r + minrow (fr bn)) /\
    forall d, in_box (range (fr bn)) d -> Census.Spec.room right (Census.Spec.radius k) (c + mincol (fr bn) + fst d) (r + minrow (fr bn) + snd d).
Proof.
  unfold frame.
  pose proof (matchable_region g0 (Census.Spec.radius k) (icols left) (irows left) (icols right) (irows right)) as M.
  fold (kernel_of k) in M.
  destruct (output_region g0 (kernel_of k) (icols left) (irows left) (icols right) (irows right)) as [[c0 c1] [r0 r1]].
  cbn. do 9 (split; [reflexivity|]). intros c r Hc Hr.
  specialize (M ltac:(destruct k; cbn; lia) ltac:(lia) ltac:(lia) ltac:(lia) ltac:(lia) (c + c0) (r + r0)).
  destruct (proj1 M) as [A B]; [lia|]. split; [exact A|]. exact B.
Qed.

Lemma matching_parts : exists bn ok, populate g1 sbx sby prev fits lm rm = Ok (bn, ok) /\ sgm_ok (fr bn) /\
  (forall c r, inside bn c r -> pix bn c r = nothing \/ (filled (pix bn c r) /\ forall d, in_box (pix bn c r) d -> in_box (range g0) d)).
Proof.
  destruct (frame_fields (bnd g0)) as (F1 & F2 & F3 & F4 & F5 & F6 & _ & _ & F9 & _).
  destruct (search_boxes_sound g1 sbx sby prev lm rm (proj1 WD) (proj2 WD) ltac:(lia) ltac:(lia) fits MF PR SR ltac:(lia) ltac:(lia)) as (bn & ok & E & G & B).
  exists bn, ok. split; [exact E|]. destruct (frame_fields bn) as (_ & _ & _ & _ & _ & _ & _ & FW & _). rewrite FW. split; [exact G|]. rewrite <- F9. exact B.
Qed.

Lemma matching_costs bn : sgm_ok (fr bn) -> exists starts main cost,
  calc_main_buf_size (fr bn) = Ok (starts, main) /\
  compute_costs kind t (kernel_of k) left right (minrow (fr bn)) (minrow (fr bn) + orows (fr bn) - 1) (mincol (fr bn)) (mincol (fr bn) + ocols (fr bn) - 1)
    bn (cost0 main) = Ok cost /\ Z.of_nat (length cost) = main /\ costs_ok cost /\ image_ok (fr bn) left /\
  layout (fr bn) starts main /\
  forall c r d, 0 <= c < ocols (fr bn) -> 0 <= r < orows (fr bn) -> in_box (pix (bnd (fr bn)) c r) d ->
      nth (Z.to_nat (pix starts c r + pos (pix (bnd (fr bn)) c r) d)) cost 0 = match_cost kind t k left right (c + mincol (fr bn)) (r + minrow (fr bn)) d.
Proof.
  intros G. destruct (frame_fields bn) as (_ & _ & _ & _ & _ & _ & FB & _ & _ & RM).
  destruct (calc_ok (fr bn) G) as (starts & main & E & Ly & M6). destruct (C0 main ltac:(lia)) as [L0 K0].
  destruct (local_costs (fr bn) kind t k left right starts main (cost0 main) G KD T0 RM E L0 K0) as (cost & Ec & L & Ck & V).
  rewrite FB in Ec. exists starts, main, cost. split; auto. split; auto. split; auto. split; auto. split; [|split; auto].
  intros c r Hc Hr. destruct (RM c r Hc Hr) as [R _]. unfold Census.Spec.room in R. assert (0 <= Census.Spec.radius k) by (destruct k; cbn; lia). split; lia.
Qed.

Lemma acc_range bn starts main cost acc : sgm_ok (fr bn) -> calc_main_buf_size (fr bn) = Ok (starts, main) ->
  costs_ok cost -> Z.of_nat (length cost) = main -> image_ok (fr bn) left -> layout (fr bn) starts main ->
  accum_sgm (fr bn) (ev (fr bn)) cost left acc ->
  Z.of_nat (length acc) = main /\
  (forall c r d, 0 <= c < ocols (fr bn) -> 0 <= r < orows (fr bn) -> in_box (pix (bnd (fr bn)) c r) d ->
    item acc (pix starts c r + pos (pix (bnd (fr bn)) c r) d) =
      zsum (map (fun dir => path_cost (range (fr bn)) (p1 (fr bn)) (p2 (fr bn)) (past_sites (fr bn) starts cost left dir c r) d) all_directions) /\
    0 <= item acc (pix starts c r + pos (pix (bnd (fr bn)) c r) d) <= 65535).
Proof.
  intros G E Ck L IO Ly A.
  assert (EV' : ev (fr bn) = evaluate_path (fr bn) \/ ev (fr bn) = evaluate_path_sse (fr bn)) by (destruct EV as [X|X]; rewrite X; auto).
  destruct (accumulated_costs (fr bn) (ev (fr bn)) starts main cost left acc G EV' E Ck L IO A) as [LA V].
  split; auto. intros c r d Hc Hr Id. specialize (V c r d Hc Hr Id). split; [exact V|].
  change (item acc (pix starts c r + pos (pix (bnd (fr bn)) c r) d)) with (nth (Z.to_nat (pix starts c r + pos (pix (bnd (fr bn)) c r) d)) acc 0). rewrite V.
  destruct (frame_fields bn) as (_ & _ & _ & _ & Q1 & Q2 & _). rewrite Q1, Q2.
  match goal with |- context[zsum (map ?f _)] => pose proof (zsum_bounds f all_directions 0 8191) as ZB end.
  cbn [length all_directions Z.of_nat Pos.of_succ_nat Pos.succ] in ZB.
  match type of ZB with ?X -> _ => assert (HX : X) end; [|specialize (ZB HX); lia].
  intros dir _. unfold past_sites. destruct (back_first (ocols (fr bn)) (orows (fr bn)) dir c r Hc Hr) as (rest & Eb).
  pose proof (path_cost_range (range (fr bn)) (p1 g0) (p2 g0) (map (site_at (fr bn) starts cost left) (past_pixels (ocols (fr bn)) (orows (fr bn)) dir c r)) d ltac:(lia) ltac:(lia)) as PB.
  rewrite Eb in PB |- *. cbn [map] in PB |- *. match type of PB with ?X -> _ => assert (HX : X) end; [|specialize (PB HX); lia].
  apply (cost_range (fr bn) starts cost left Ck) with (p := (c, r)); auto; [|split; auto].
  intros p Ip. destruct Ly as (_ & _ & L3 & _). unfold len. rewrite L. apply L3; auto.
Qed.

(* The matcher delivers a result, whatever the schedule of the threads. *)
Theorem matching_completes : exists out, matching avg g0 kind t (kernel_of k) sbx sby prev fits lm rm ev cost0 left right out.
Proof.
  destruct matching_parts as (bn & ok & E & G & B).
  destruct ok; [|eexists; exists bn, false; split; [exact E|reflexivity]].
  destruct (matching_costs bn G) as (starts & main & cost & E1 & E2 & L & Ck & IO & Ly & V).
  assert (EV' : ev (fr bn) = evaluate_path (fr bn) \/ ev (fr bn) = evaluate_path_sse (fr bn)) by (destruct EV as [X|X]; rewrite X; auto).
  destruct (accumulation_completes (fr bn) (ev (fr bn)) starts main cost left G EV' E1 Ck L IO) as (acc & A).
  destruct (acc_range bn starts main cost acc G E1 Ck L IO Ly A) as [LA VA].
  destruct (view_ok avg AV (fr bn) G starts main Ly acc LA) as (out & acc' & Ev & _).
  { intros p d Ip Id. destruct p as [c r]. apply (VA c r d); auto; apply Ip. }
  exists out, bn, true. split; [exact E|]. exists starts, main, cost, acc, acc'. auto.
Qed.

(* Every result: as large as the matchable region; boxes as in C58; if they do not fit
   into the memory no pixel is valid; otherwise every pixel gets the choice among the
   disparities of its box according to the sums of the costs of the eight paths. *)
Theorem matching_result out : matching avg g0 kind t (kernel_of k) sbx sby prev fits lm rm ev cost0 left right out ->
  exists bn ok, populate g1 sbx sby prev fits lm rm = Ok (bn, ok) /\
    icols out = ocols g1 /\ irows out = orows g1 /\
    forall c r, 0 <= c < ocols g1 -> 0 <= r < orows g1 ->
      if ok then exists v', chosen avg (pix bn c r) (score (fr bn) (match_cost kind t k left right) left c r) (pix out c r) v'
      else pix out c r = None.
Proof.
  destruct matching_parts as (bn & ok & E & G & B). intros (bn' & ok' & E' & M). rewrite E in E'. injection E' as <- <-.
  exists bn, ok. split; auto. destruct (frame_fields bn) as (_ & _ & _ & _ & _ & _ & FB & FW & _).
  assert (OW : ocols g1 = ocols (fr bn) /\ orows g1 = orows (fr bn)) by (rewrite FW; auto). destruct OW as [-> ->].
  destruct ok.
  - destruct M as (starts & main & cost & acc & acc' & E1 & E2 & A & Ev).
    destruct (matching_costs bn G) as (starts' & main' & cost' & E1' & E2' & L & Ck & IO & Ly & V).
    rewrite E1 in E1'. injection E1' as <- <-. rewrite E2 in E2'. injection E2' as <-.
    destruct (acc_range bn starts main cost acc G E1 Ck L IO Ly A) as [LA VA].
    destruct (view_ok avg AV (fr bn) G starts main Ly acc LA) as (out' & acc'' & Ev' & V1 & V2 & _ & V4).
    { intros p d Ip Id. destruct p as [c r]. apply (VA c r d); auto; apply Ip. }
    rewrite Ev in Ev'. injection Ev' as <- <-. split; auto. split; auto. intros c r Hc Hr.
    destruct (V4 (c, r) (conj Hc Hr)) as (v' & Ch & _). exists v'. unfold pbox, pstart in Ch. cbn [fst snd] in Ch. rewrite FB in Ch.
    assert (BV : box_vec (pix bn c r) (fun d => at_ acc (pix starts c r + pos (pix bn c r) d)) = box_vec (pix bn c r) (score (fr bn) (match_cost kind t k left right) left c r)).
    { unfold box_vec. apply map_ext_in. intros d Id. apply in_cells in Id. rewrite <- FB in Id. destruct (VA c r d Hc Hr Id) as [X _].
      rewrite (score_eq (fr bn) starts cost left (match_cost kind t k left right) c r d Hc Hr Id V) in X. rewrite FB in X. exact X. }
    unfold chosen in *. rewrite BV in Ch. exact Ch.
  - change (out = Img (ocols (fr bn)) (orows (fr bn)) (fun _ _ => None)) in M. rewrite M. cbn [icols irows pix]. auto.
Qed.

(* A disparity of the box cheaper than all others is the result. *)
Theorem cheapest_disparity_found out : matching avg g0 kind t (kernel_of k) sbx sby prev fits lm rm ev cost0 left right out ->
  forall bn, populate g1 sbx sby prev fits lm rm = Ok (bn, true) ->
  forall c r d, 0 <= c < ocols g1 -> 0 <= r < orows g1 -> in_box (pix bn c r) d ->
  let s := score (fr bn) (match_cost kind t k left right) left c r in
  (forall e, in_box (pix bn c r) e -> e <> d -> s d < s e) -> pix out c r = Some d.
Proof.
  intros M bn E c r d Hc Hr Id s U. destruct (matching_result out M) as (bn' & ok & E' & _ & _ & V).
  rewrite E in E'. injection E' as <- <-. destruct (V c r Hc Hr) as (v' & Ch). apply (chosen_unique avg _ _ _ _ _ Ch Id U).
Qed.
End Match.
Print Assumptions matching_completes.
Print Assumptions matching_result.
Print Assumptions cheapest_disparity_found.

(* ---- concrete cases ---- *)
Definition half_up (l : list Z) : Z := (2 * zsum l + Z.of_nat (length l)) / (2 * Z.of_nat (length l)).
Example half_up_mean : mean_ok half_up.
Proof.
  intros l Ne L _. unfold half_up. assert (P : 0 < Z.of_nat (length l)) by (destruct l; [congruence|cbn [length]; lia]).
  set (n := Z.of_nat (length l)) in *. set (s := zsum l). clearbody n s.
  pose proof (Z.div_mod (2 * s + n) (2 * n) ltac:(lia)). pose proof (Z.mod_pos_bound (2 * s + n) (2 * n) ltac:(lia)).
  set (q := (2 * s + n) / (2 * n)) in *. set (m := (2 * s + n) mod (2 * n)) in *. clearbody q m. nia.
Qed.
Example ex_select : select_best half_up 3 2 [7; 3; 8; 9; 3; 3] = Ok (5, 1, [5; 6; 6; 6; 5; 3]) /\ select_best half_up 2 2 [4; 4; 4; 4] = Ok (0, 4, [4; 4; 4; 4]).
Proof. vm_compute. auto. Qed.

(* two images of 8 by 5 pixels, the right one moved by one column *)
Definition ex_left : img Z := Img 8 5 (fun x y => (x * x * 7 + y * 11 + x * y * 3) mod 29).
Definition ex_right : img Z := Img 8 5 (fun x y => ((x - 1) * (x - 1) * 7 + y * 11 + (x - 1) * y * 3) mod 29).
Definition ex_g0 : sgm := Sgm (-1) 0 1 0 8 40 0 0 0 0 (Img 0 0 (fun _ _ => nothing)).
Definition ex_frame := frame ex_g0 3 ex_left ex_right (bnd ex_g0).
Example ex_hypotheses : (mnx ex_g0 <= 0 /\ mnx ex_g0 <= mxx ex_g0) /\ (mny ex_g0 <= 0 /\ mny ex_g0 <= mxy ex_g0) /\
  (0 < ocols ex_frame /\ 0 < orows ex_frame) /\ mask_fits ex_frame None None /\ priors_reach ex_frame 2 2 None /\ small_range ex_frame /\
  (forall n, 0 <= n -> Z.of_nat (length (repeat 0 (Z.to_nat n))) = n /\ costs_ok (repeat 0 (Z.to_nat n))).
Proof.
  cbn. do 2 (split; [lia|]). split; [vm_compute; auto|]. split; [unfold mask_fits; auto|]. split; [intros c r d X; discriminate|].
  split; [unfold small_range, ex_frame, frame; cbn; lia|]. intros n N. rewrite repeat_length. split; [lia|].
  apply Forall_forall. intros x I. apply repeat_spec in I. lia.
Qed.
Example ex_cost : ocols ex_frame = 4 /\ orows ex_frame = 3 /\ mincol ex_frame = 2 /\ minrow ex_frame = 1 /\
  map (fun dx => match_cost Census 0 Census.Spec.S3 ex_left ex_right 3 2 (dx, 0)) [-1; 0; 1] = [5; 5; 0] /\
  map (fun dx => match_cost Ternary 2 Census.Spec.S3 ex_left ex_right 3 2 (dx, 0)) [-1; 0; 1] = [9; 8; 0].
Proof. vm_compute. repeat split. Qed.
(* the disparity 1 is found at pixel (1,1) of the result *)
Definition ex_boxes : img box := Img 4 3 (fun _ _ => range ex_frame).
Example ex_scores : map (fun dx => score (frame ex_g0 3 ex_left ex_right ex_boxes) (match_cost Census 0 Census.Spec.S3 ex_left ex_right) ex_left 1 1 (dx, 0)) [-1; 0; 1] = [76; 78; 0].
Proof. vm_compute. reflexivity. Qed.
