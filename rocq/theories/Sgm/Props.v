(* Semi-global matching: theorems. *)
From Coq Require Import ZArith List Bool Lia.
From Verif Require Import Lib.Base Lib.Lists ImgMem.Model ImgMem.Spec Lib.Img Sgm.Model Sgm.Spec Sgm.Mem Sgm.Proofs Sgm.Pass
  Sgm.Lines Sgm.Par Sgm.Accum Sgm.Dp.
Import ListNotations.
Local Open Scope Z_scope.

Lemma nth_rep {A} (a d : A) n m : (m < n)%nat -> nth m (repeat a n) d = a.
Proof. revert m. induction n as [|n IH]; intros [|m] H; cbn [repeat nth]; [lia|lia|auto|apply IH; lia]. Qed.

(* Disparities and their numbers: each disparity of the search range has its own
   number below the size of the range, and the conversions invert each other. *)
Theorem disparity_numbers g : mnx g <= mxx g -> mny g <= mxy g ->
  (forall dx dy, in_box (range g) (dx, dy) ->
     0 <= xy_to_disp g dx dy < (mxx g - mnx g + 1) * (mxy g - mny g + 1) /\
     disp_to_xy g (xy_to_disp g dx dy) = Ok (dx, dy)) /\
  (forall i, 0 <= i < (mxx g - mnx g + 1) * (mxy g - mny g + 1) ->
     exists dx dy, disp_to_xy g i = Ok (dx, dy) /\ in_box (range g) (dx, dy) /\ xy_to_disp g dx dy = i).
Proof.
  intros HX HY.
  assert (A : forall dx dy, in_box (range g) (dx, dy) ->
     0 <= xy_to_disp g dx dy < (mxx g - mnx g + 1) * (mxy g - mny g + 1) /\
     disp_to_xy g (xy_to_disp g dx dy) = Ok (dx, dy)).
  { intros dx dy I. rewrite xy_pos. pose proof (pos_range _ _ I) as K.
    unfold box_size, range in K. cbn [bx0 by0 bx1 by1] in K.
    split; [exact K|].
    unfold disp_to_xy, cdiv, crem, ndx. unfold in_box, range in I. cbn [bx0 by0 bx1 by1 fst snd] in I.
    unfold pos, range in *. cbn [bx0 by0 bx1 by1 fst snd] in *.
    set (W := mxx g - mnx g + 1) in *. assert (HW : 0 < W) by (unfold W; lia).
    rewrite (proj2 (Z.eqb_neq W 0)) by lia. cbn [bind].
    rewrite Z.quot_div_nonneg, Z.rem_mod_nonneg by lia.
    replace ((dy - mny g) * W + (dx - mnx g)) with (dx - mnx g + (dy - mny g) * W) by ring.
    rewrite Z.div_add, Z.mod_add by lia. rewrite Z.div_small, Z.mod_small by (unfold W; lia).
    do 2 f_equal; lia. }
  split; [exact A|]. intros i Hi.
  destruct (pos_surj (range g) i) as ((dx & dy) & I & E); [cbn; lia|cbn; lia| |].
  { unfold box_size, range. cbn [bx0 by0 bx1 by1]. exact Hi. }
  exists dx, dy. rewrite <- xy_pos in E. destruct (A dx dy I) as [_ B]. rewrite E in B. auto.
Qed.
Print Assumptions disparity_numbers.

(* The entries of a pixel's vector: one for each disparity of its box. *)
Theorem disparity_of_entry b : bx0 b <= bx1 b -> by0 b <= by1 b ->
  forall i, 0 <= i < (bx1 b - bx0 b + 1) * (by1 b - by0 b + 1) ->
  exists d, disp_index_to_xy i b = Ok d /\ in_box b d /\ pos b d = i /\ forall e, in_box b e -> pos b e = i -> e = d.
Proof.
  intros HX HY i Hi. destruct (pos_surj b i) as (d & I & E); [lia|lia|unfold box_size; lia|].
  exists d. split; [|split; auto; split; auto; intros e Ie Ee; apply (pos_inj b); auto; lia].
  subst i. unfold disp_index_to_xy, cdiv. destruct d as [dx dy]. unfold pos, in_box in *. cbn [fst snd] in *.
  set (W := bx1 b - bx0 b + 1) in *. assert (0 < W) by (unfold W; lia).
  rewrite (proj2 (Z.eqb_neq W 0)) by lia. cbn [bind]. rewrite Z.quot_div_nonneg by lia.
  replace (((dy - by0 b) * W + (dx - bx0 b)) / W) with (dy - by0 b); [do 2 f_equal; lia|].
  apply (Z.div_unique _ _ _ (dx - bx0 b)); [left; unfold W; lia|ring].
Qed.
Print Assumptions disparity_of_entry.

(* The table of adjacent disparities: row d lists the eight neighbours of d, those
   outside the search range replaced by the nearest disparity inside. *)
Theorem adjacent_table g : mnx g <= mxx g -> mny g <= mxy g ->
  exists t, lookup_table g = Ok t /\
  length t = Z.to_nat ((mxx g - mnx g + 1) * (mxy g - mny g + 1) * 8) /\
  forall dx dy k, in_box (range g) (dx, dy) -> 0 <= k < 8 ->
    let e := towards (range g) (dx, dy) (nth (Z.to_nat k) compass (0, 0)) in
    nth (Z.to_nat (xy_to_disp g dx dy * 8 + k)) t 0 = xy_to_disp g (fst e) (snd e).
Proof.
  intros HX HY. destruct (lookup_table_ok g HX HY) as (t & E & L & V). exists t. split; auto. split.
  - unfold len in L. rewrite nd_size in L. unfold box_size, range in L. cbn [bx0 by0 bx1 by1] in L. lia.
  - intros dx dy k I Hk e. specialize (V (dx, dy) k I Hk). unfold at_ in V. rewrite !xy_pos.
    unfold e in *. rewrite V. f_equal.
Qed.
Print Assumptions adjacent_table.

(* Left to their defaults, the penalties are positive, ordered and small enough
   for the accumulated costs of the eight directions to fit in 16 bits. *)
Theorem default_penalties k kernel : 0 < choose_p1 k kernel 0 <= choose_p2 k kernel 0 /\
  8 * (255 + choose_p2 k kernel 0) < 65536.
Proof.
  unfold choose_p1, choose_p2. rewrite !(Z.ltb_irrefl 0).
  destruct k; repeat match goal with |- context[if ?b then _ else _] => destruct b end; lia.
Qed.
Print Assumptions default_penalties.

(* One step along a path, plain and with vector instructions.  [buf] holds the
   accumulated costs L of the previous pixel, with box [bp], from [po] on, and the
   scratch buffer has the same large value everywhere.  Afterwards the costs of the
   current pixel are stored from [oo] on, nothing else has changed, and the scratch
   buffer is as before, whatever the boxes. *)
Theorem path_step g ev t b bp buf po full cost lo oo gr L c :
  sgm_ok g -> ev = evaluate_path g \/ ev = evaluate_path_sse g ->
  lookup_table g = Ok t -> box_ok (range g) b -> box_ok (range g) bp ->
  (forall e, in_box bp e -> 0 <= L e <= 255 + Z.max (p1 g) (p2 g)) ->
  0 <= po -> po + box_size bp <= oo -> oo + box_size b <= Z.of_nat (length buf) ->
  (forall e, in_box bp e -> nth (Z.to_nat (po + pos bp e)) buf 0 = L e) ->
  full = repeat (bad g) (Z.to_nat (nd g)) ->
  0 <= lo -> lo + box_size b <= Z.of_nat (length cost) ->
  (forall d, in_box b d -> nth (Z.to_nat (lo + pos b d)) cost 0 = c d /\ 0 <= c d <= 255) -> 0 <= gr ->
  exists buf', ev t b bp buf po full cost lo oo gr = Ok (buf', full) /\
    length buf' = length buf /\
    (forall d, in_box b d ->
       nth (Z.to_nat (oo + pos b d)) buf' 0 = step_cost (range g) (p1 g) (p2 g) bp L c gr d) /\
    (forall i, 0 <= i -> ~ (oo <= i < oo + box_size b) -> nth (Z.to_nat i) buf' 0 = nth (Z.to_nat i) buf 0).
Proof.
  intros G EV Et Bb Bp HL H1 H2 H3 HB -> H4 H5 HC H6.
  assert (HX : mnx g <= mxx g) by apply G. assert (HY : mny g <= mxy g) by apply G.
  assert (Ht : table_ok g t) by (destruct (lookup_table_ok g HX HY) as (t' & E' & K); congruence).
  assert (ND : 0 <= nd g) by (unfold nd, ndx, ndy; nia).
  assert (GE : ev_good g ev) by (destruct EV as [-> | ->]; [apply plain_good|apply sse_good]; auto).
  destruct (GE bp L b t buf (repeat (bad g) (Z.to_nat (nd g))) cost po oo lo gr c) as (buf' & full' & E & (W1 & W2 & W3) & Lf & Hf);
    auto.
  - unfold len. rewrite repeat_length. lia.
  - intros i Hi. unfold at_. apply nth_rep. lia.
  - intros d I. apply HC; auto.
  - intros d I. apply HC; auto.
  - assert (full' = repeat (bad g) (Z.to_nat (nd g))).
    { apply (nth_ext _ _ 0 0); [rewrite repeat_length; unfold len in Lf; lia|].
      intros n Hn. rewrite nth_rep by (unfold len in Lf; lia).
      specialize (Hf (Z.of_nat n)). unfold at_ in Hf. rewrite Nat2Z.id in Hf. apply Hf. unfold len in Lf. lia. }
    subst full'. exists buf'. split; auto. unfold len in W1. split; [lia|]. split; auto.
    intros d I. apply W2; auto. now apply pos_range.
Qed.
Print Assumptions path_step.

(* The entries of the cost buffers: each pixel has room for its box, the rooms do
   not overlap and lie inside the buffer. *)
Theorem cost_buffer_layout g : sgm_ok g -> exists starts main,
  calc_main_buf_size g = Ok (starts, main) /\ icols starts = ocols g /\ irows starts = orows g /\
  (forall c r d, 0 <= c < ocols g -> 0 <= r < orows g -> in_box (pix (bnd g) c r) d ->
     0 <= pix starts c r + pos (pix (bnd g) c r) d < main) /\
  (forall c r d c' r' d', 0 <= c < ocols g -> 0 <= r < orows g -> 0 <= c' < ocols g -> 0 <= r' < orows g ->
     in_box (pix (bnd g) c r) d -> in_box (pix (bnd g) c' r') d' ->
     pix starts c r + pos (pix (bnd g) c r) d = pix starts c' r' + pos (pix (bnd g) c' r') d' ->
     c = c' /\ r = r' /\ d = d').
Proof.
  intros G. destruct (calc_ok g G) as (starts & main & E & Ly & _). exists starts, main. split; auto.
  pose proof Ly as (A & B & C & D). split; auto. split; auto. split.
  - intros c r d Hc Hr I. specialize (C (c, r) (conj Hc Hr)). pose proof (pos_range _ _ I).
    unfold pstart, psize, pbox in C. cbn [fst snd] in C. lia.
  - intros c r d c' r' d' Hc Hr Hc' Hr' I I' Eq.
    assert (S : In (pix starts c r + pos (pix (bnd g) c r) d) (slots g starts (c, r))).
    { apply in_slots. pose proof (pos_range _ _ I). unfold pstart, psize, pbox. cbn [fst snd]. lia. }
    assert (S' : In (pix starts c r + pos (pix (bnd g) c r) d) (slots g starts (c', r'))).
    { rewrite Eq. apply in_slots. pose proof (pos_range _ _ I'). unfold pstart, psize, pbox. cbn [fst snd]. lia. }
    pose proof (slots_disjoint g starts main Ly (c, r) (c', r') _ (conj Hc Hr) (conj Hc' Hr') S S') as K.
    injection K as <- <-. split; auto. split; auto. apply (pos_inj (pix (bnd g) c r)); auto. lia.
Qed.
Print Assumptions cost_buffer_layout.

(* The lines of a direction: each pixel of the image is on exactly one. *)
Theorem lines_partition g d p : 0 < ocols g -> 0 < orows g -> in_img (ocols g) (orows g) p ->
  exists st k, (In st (dir_starts g d) /\ 0 <= k /\ p = on_line (fst st) (snd st) d k /\
     forall j, 0 <= j <= k -> in_img (ocols g) (orows g) (on_line (fst st) (snd st) d j)) /\
  forall st' k', (In st' (dir_starts g d) /\ 0 <= k' /\ p = on_line (fst st') (snd st') d k' /\
     forall j, 0 <= j <= k' -> in_img (ocols g) (orows g) (on_line (fst st') (snd st') d j)) -> st' = st /\ k' = k.
Proof.
  intros W H I. destruct p as [c r].
  destruct (on_some_line g W H d (Z.to_nat (Z.max (ocols g) (orows g))) c r) as (st & k & Is & E & A); auto.
  exists st, (Z.of_nat k). split; [split; auto; split; [lia|auto]|].
  intros st' k' (Is' & Hk & E' & A'). apply (one_line g W H d st' st k' (Z.of_nat k)); auto; [lia|congruence].
Qed.
Print Assumptions lines_partition.

(* The tasks of one direction always finish their own computations, and whatever
   steps the threads have taken so far, they can take another until all of them
   are done: no access outside a buffer, no thread waits. *)
Theorem threads_never_stuck g ev t starts main cost image d fuel progs m m1 ts :
  sgm_ok g -> ev = evaluate_path g \/ ev = evaluate_path_sse g ->
  lookup_table g = Ok t -> calc_main_buf_size g = Ok (starts, main) ->
  costs_ok cost -> Z.of_nat (length cost) = main -> image_ok g image -> Z.of_nat (length m) = main ->
  Forall2 (fun st us => task_updates g ev t starts main cost image fuel (fst st) (snd st) d = Ok us)
    (dir_starts g d) progs ->
  psteps m (map (fun us => Thr us None) progs) m1 ts ->
  Forall finished ts \/ exists ts1 t ts2 m2 t', ts = ts1 ++ t :: ts2 /\ tstep m1 t m2 t'.
Proof.
  intros G EV Et Ec HC HCl HI Lm F P.
  assert (HX : mnx g <= mxx g) by apply G. assert (HY : mny g <= mxy g) by apply G.
  assert (Ht : table_ok g t) by (destruct (lookup_table_ok g HX HY) as (t' & E' & K); congruence).
  assert (GE : ev_good g ev) by (destruct EV as [-> | ->]; [apply plain_good|apply sse_good]; auto).
  destruct (calc_ok g G) as (s' & m' & E' & Ly & M6). assert (X : s' = starts /\ m' = main) by (split; congruence).
  destruct X as [-> ->].
  destruct (progs_ok g G starts main Ly ev GE t cost image Ht HC HCl HI M6 fuel d progs F) as (N & Rg & _). cbv zeta in *.
  destruct (par_keep _ _ _ _ P N) as (K1 & K2 & K3 & K4).
  - intros i v I. unfold len. rewrite Lm. apply (Rg i v I).
  - apply Forall_forall. intros x I. apply in_map_iff in I as (us & <- & _). exact Logic.I.
  - apply par_progress; auto.
Qed.
Print Assumptions threads_never_stuck.

(* Accumulation always completes: the tasks never run out of their small buffers
   and there are schedules in which all of them finish. *)
Theorem accumulation_completes g ev starts main cost image :
  sgm_ok g -> ev = evaluate_path g \/ ev = evaluate_path_sse g ->
  calc_main_buf_size g = Ok (starts, main) ->
  costs_ok cost -> Z.of_nat (length cost) = main -> image_ok g image ->
  exists acc, accum_sgm g ev cost image acc.
Proof.
  intros G EV Ec HC HCl HI.
  assert (HX : mnx g <= mxx g) by apply G. assert (HY : mny g <= mxy g) by apply G.
  destruct (lookup_table_ok g HX HY) as (t & Et & Ht).
  assert (GE : ev_good g ev) by (destruct EV as [-> | ->]; [apply plain_good|apply sse_good]; auto).
  destruct (calc_ok g G) as (s' & m' & E' & Ly & M6). assert (X : s' = starts /\ m' = main) by (split; congruence).
  destruct X as [-> ->].
  destruct (dirs_run_exists g G starts main Ly ev GE t cost image Ht HC HCl HI M6 dir_order (repeat 0 (Z.to_nat main))) as (acc & Rn).
  { unfold len. rewrite repeat_length. lia. }
  exists acc, t, starts, main. auto.
Qed.
Print Assumptions accumulation_completes.

(* The result, whatever the schedule of the threads and with either variant of the
   step: the entry of a pixel and a disparity of its box is the sum of the path
   costs arriving from the eight directions. *)
Theorem accumulated_costs g ev starts main cost image acc :
  sgm_ok g -> ev = evaluate_path g \/ ev = evaluate_path_sse g ->
  calc_main_buf_size g = Ok (starts, main) ->
  costs_ok cost -> Z.of_nat (length cost) = main -> image_ok g image ->
  accum_sgm g ev cost image acc ->
  Z.of_nat (length acc) = main /\
  forall c r d, 0 <= c < ocols g -> 0 <= r < orows g -> in_box (pix (bnd g) c r) d ->
    nth (Z.to_nat (pix starts c r + pos (pix (bnd g) c r) d)) acc 0 =
    zsum (map (fun dir => path_cost (range g) (p1 g) (p2 g) (past_sites g starts cost image dir c r) d) all_directions).
Proof.
  intros G EV Ec HC HCl HI (t & s & m & Et & E & Rn). rewrite Ec in E. injection E as <- <-.
  assert (HX : mnx g <= mxx g) by apply G. assert (HY : mny g <= mxy g) by apply G.
  assert (Ht : table_ok g t) by (destruct (lookup_table_ok g HX HY) as (t' & E' & K); congruence).
  assert (GE : ev_good g ev) by (destruct EV as [-> | ->]; [apply plain_good|apply sse_good]; auto).
  destruct (calc_ok g G) as (s' & m' & E' & Ly & M6). assert (X : s' = starts /\ m' = main) by (split; congruence).
  destruct X as [-> ->].
  assert (Z0 : forall i, 0 <= i < main -> at_ (repeat 0 (Z.to_nat main)) i = 0).
  { intros i Hi. unfold at_. apply nth_rep. lia. }
  assert (In0 : forall p e, inimg g p -> in_box (pbox g p) e -> 0 <= pstart starts p + pos (pbox g p) e < main).
  { intros p e Ip Ie. destruct Ly as (_ & _ & L3 & _). specialize (L3 p Ip). pose proof (pos_range _ _ Ie).
    unfold psize in L3. lia. }
  destruct (dirs_run_ok g G starts main Ly ev GE t cost image Ht HC HCl HI M6 dir_order (repeat 0 (Z.to_nat main)) acc) as (Q1 & Q2 & _); auto.
  - unfold len. rewrite repeat_length. lia.
  - cbn. lia.
  - intros p e Ip Ie. rewrite Z0 by auto. cbn [dir_order length]. lia.
  - split; auto. intros c r d Hc Hr I.
    specialize (Q2 (c, r) d (conj Hc Hr) I). unfold pstart, pbox, at_ in Q2. cbn [fst snd] in Q2. rewrite Q2.
    specialize (Z0 _ (In0 (c, r) d (conj Hc Hr) I)). unfold pstart, pbox, at_ in Z0. cbn [fst snd] in Z0. rewrite Z0.
    unfold dir_order, all_directions, dir_cost. cbn [map zsum fold_right fst snd]. lia.
Qed.
Print Assumptions accumulated_costs.

(* Path costs are least energies: if jumping never costs more than the value taken
   outside the boxes, the path cost of d plus the least energy of the path up to
   the previous pixel is the least energy of all choices of disparities along the
   path which end in d. *)
Theorem path_costs_optimal R q1 q2 s past : 0 <= q1 <= q2 -> Forall (site_ok R) (s :: past) -> calm R q1 q2 (s :: past) ->
  exists e, is_min (energies q1 q2 past) e /\
  forall d, in_box (s_box s) d -> is_min (energies_at q1 q2 (s :: past) d) (path_cost R q1 q2 (s :: past) d + e).
Proof. intros Q F C. exact (path_optimal R q1 q2 Q (s :: past) F C). Qed.
Print Assumptions path_costs_optimal.

(* which is so where the boxes only grow *)
Theorem growing_boxes_optimal R q1 q2 s past : 0 <= q1 <= q2 -> Forall (site_ok R) (s :: past) -> growing (s :: past) ->
  exists e, is_min (energies q1 q2 past) e /\
  forall d, in_box (s_box s) d -> is_min (energies_at q1 q2 (s :: past) d) (path_cost R q1 q2 (s :: past) d + e).
Proof. intros Q F C. apply path_costs_optimal; auto. apply growing_calm; auto. Qed.
Print Assumptions growing_boxes_optimal.

(* With the same search box for all pixels, the accumulated costs of a pixel are,
   up to a constant of that pixel, the sums over the eight directions of the least
   energies of the paths ending in the disparity. *)
Theorem accumulated_energy g ev starts main cost image acc b c r :
  sgm_ok g -> p1 g <= p2 g -> ev = evaluate_path g \/ ev = evaluate_path_sse g ->
  calc_main_buf_size g = Ok (starts, main) ->
  costs_ok cost -> Z.of_nat (length cost) = main -> image_ok g image ->
  bx0 b <= bx1 b -> by0 b <= by1 b -> (forall x y, inside (bnd g) x y -> pix (bnd g) x y = b) ->
  accum_sgm g ev cost image acc -> 0 <= c < ocols g -> 0 <= r < orows g ->
  exists k, forall d, in_box b d -> exists es,
    Forall2 (fun dir e => is_min (energies_at (p1 g) (p2 g) (past_sites g starts cost image dir c r) d) e) all_directions es /\
    nth (Z.to_nat (pix starts c r + pos b d)) acc 0 = zsum es - k.
Proof.
  intros G P12 EV Ec HC HCl HI Bx By Same Ac Hc Hr.
  destruct (accumulated_costs g ev starts main cost image acc G EV Ec HC HCl HI Ac) as (_ & V).
  destruct (calc_ok g G) as (s' & m' & E' & Ly & M6). assert (X : s' = starts /\ m' = main) by (split; congruence).
  destruct X as [-> ->]. clear E'.
  assert (Dim : icols (bnd g) = ocols g /\ irows (bnd g) = orows g) by (split; apply G).
  assert (BOX : forall p, in_img (ocols g) (orows g) p -> pbox g p = b).
  { intros [x y] [? ?]. apply Same. unfold inside. cbn [fst snd] in *. lia. }
  assert (Eb : pix (bnd g) c r = b) by (apply Same; unfold inside; lia).
  assert (SO : forall p, in_img (ocols g) (orows g) p -> site_ok (range g) (site_at g starts cost image p)).
  { intros p I. split.
    - exists (bx0 b, by0 b). rewrite site_box, BOX by auto. unfold in_box. cbn [fst snd]. lia.
    - intros d Id. rewrite site_box in Id. split.
      + apply (pbox_ok g G p I). auto.
      + apply (cost_range g starts cost image HC); auto.
        intros q Iq. destruct Ly as (_ & _ & L3 & _). unfold len. rewrite HCl. apply L3; auto. }
  assert (BK : forall n dir x y, Forall (in_img (ocols g) (orows g)) (back n (ocols g) (orows g) dir x y)).
  { induction n as [|n IH]; intros dir x y; [constructor|]. cbn [back]. destruct (in_imgb _ _ x y) eqn:E; constructor; auto.
    now apply in_imgb_iff. }
  assert (Dir : forall dir, exists e, forall d, in_box b d ->
     is_min (energies_at (p1 g) (p2 g) (past_sites g starts cost image dir c r) d)
       (path_cost (range g) (p1 g) (p2 g) (past_sites g starts cost image dir c r) d + e)).
  { intros dir. unfold past_sites, past_pixels.
    assert (N : exists n, Z.to_nat (ocols g + orows g) = S n) by (exists (Nat.pred (Z.to_nat (ocols g + orows g))); lia).
    destruct N as (n & ->). cbn [back].
    assert (I0 : in_img (ocols g) (orows g) (c, r)) by (split; auto).
    rewrite (proj2 (in_imgb_iff (ocols g) (orows g) c r)) by auto. cbn [map].
    set (l := back n _ _ dir _ _). assert (Fl : Forall (in_img (ocols g) (orows g)) l) by apply BK.
    destruct (growing_boxes_optimal (range g) (p1 g) (p2 g) (site_at g starts cost image (c, r)) (map (site_at g starts cost image) l)) as (e & _ & Q).
    - destruct G as (_ & _ & ? & _). lia.
    - constructor; [apply SO; auto|]. apply Forall_map. eapply Forall_impl; [|exact Fl]. auto.
    - assert (K : forall l p, in_img (ocols g) (orows g) p -> Forall (in_img (ocols g) (orows g)) l ->
         growing (map (site_at g starts cost image) (p :: l))).
      { induction l0 as [|q l0 IH]; intros p Ip F; [exact I|]. inversion F; subst. split; [|apply IH; auto].
        intros d. rewrite !site_box, !BOX by auto. auto. }
      apply (K l (c, r)); auto.
    - exists e. intros d Id. apply Q. cbn [site_at s_box fst snd]. now rewrite Eb. }
  destruct (Dir TL) as (e1 & D1), (Dir T) as (e2 & D2), (Dir TR) as (e3 & D3), (Dir L) as (e4 & D4).
  destruct (Dir R) as (e5 & D5), (Dir BL) as (e6 & D6), (Dir B) as (e7 & D7), (Dir BR) as (e8 & D8).
  exists (e1 + e2 + e3 + e4 + e5 + e6 + e7 + e8). intros d Id.
  eexists. split.
  - unfold all_directions. repeat (apply Forall2_cons; [eauto|]). constructor.
  - specialize (V c r d Hc Hr). rewrite Eb in V. rewrite V by auto. unfold all_directions. cbn [map zsum fold_right]. lia.
Qed.
Print Assumptions accumulated_energy.

(* A concrete instance: two by two pixels with different boxes. *)
Definition ex_box (c r : Z) : box :=
  if r =? 0 then (if c =? 0 then Box 0 0 1 1 else Box 1 0 2 1) else (if c =? 0 then Box 0 0 2 0 else Box 2 1 2 1).
Definition ex_sgm : sgm := Sgm 0 0 2 1 3 20 2 2 1 1 (Img 2 2 ex_box).
Definition ex_cost : list Z := [9; 0; 40; 200; 7; 8; 255; 1; 30; 2; 3; 77].
Definition ex_image : img Z := Img 4 4 (fun c r => 10 * c + 3 * r * r).
Example ex_sgm_ok : sgm_ok ex_sgm /\ costs_ok ex_cost /\ image_ok ex_sgm ex_image.
Proof.
  split; [|split].
  - unfold sgm_ok, ex_sgm. cbn [mnx mny mxx mxy p1 p2 ocols orows bnd icols irows pix].
    repeat (split; [lia|]). intros c r _. unfold ex_box, box_ok, in_box, range.
    cbn [mnx mny mxx mxy]. destruct (r =? 0), (c =? 0); cbn [bx0 by0 bx1 by1]; (split; [lia|split; [lia|intros; lia]]).
  - unfold costs_ok, ex_cost. repeat constructor; lia.
  - intros c r. unfold ex_sgm, ex_image, inside. cbn [ocols orows mincol minrow icols irows]. lia.
Qed.
Definition ex_starts : img Z := match calc_main_buf_size ex_sgm with Ok (s, _) => s | _ => Img 0 0 (fun _ _ => 0) end.
Example ex_layout : calc_main_buf_size ex_sgm = Ok (ex_starts, 12).
Proof. vm_compute. reflexivity. Qed.
Example ex_accum : exists acc, accum_sgm ex_sgm (evaluate_path ex_sgm) ex_cost ex_image acc /\ nth 9 acc 0 = 22.
Proof.
  destruct ex_sgm_ok as (A & B & C).
  destruct (accumulation_completes ex_sgm (evaluate_path ex_sgm) ex_starts 12 ex_cost ex_image A (or_introl eq_refl) ex_layout B eq_refl C) as (acc & E).
  exists acc. split; auto.
  destruct (accumulated_costs _ _ _ _ _ _ _ A (or_introl eq_refl) ex_layout B eq_refl C E) as (_ & V).
  specialize (V 0 1 (1, 0)). replace 9%nat with (Z.to_nat (pix ex_starts 0 1 + pos (pix (bnd ex_sgm) 0 1) (1, 0))) by (vm_compute; reflexivity).
  rewrite V; [vm_compute; reflexivity|cbn; lia|cbn; lia|]. unfold in_box; cbn. lia.
Qed.
Definition ex_table : list Z := match lookup_table ex_sgm with Ok t => t | _ => [] end.
Example ex_step :
  evaluate_path ex_sgm ex_table (Box 1 0 2 1) (Box 0 0 1 1) [9; 0; 40; 200; 0; 0; 0; 0] 0 (repeat 275 6) ex_cost 4 4 10
    = Ok ([9; 0; 40; 200; 7; 11; 258; 4], repeat 275 6) /\
  evaluate_path_sse ex_sgm ex_table (Box 1 0 2 1) (Box 0 0 1 1) [9; 0; 40; 200; 0; 0; 0; 0] 0 (repeat 275 6) ex_cost 4 4 10
    = Ok ([9; 0; 40; 200; 7; 11; 258; 4], repeat 275 6).
Proof. split; vm_compute; reflexivity. Qed.
Example ex_tasks :
  Forall2 (fun st us => task_updates ex_sgm (evaluate_path ex_sgm) ex_table ex_starts 12 ex_cost ex_image 5 (fst st) (snd st) R = Ok us)
    (dir_starts ex_sgm R)
    [[(0, 9); (1, 0); (2, 40); (3, 200); (4, 7); (5, 11); (6, 258); (7, 4)];
     [(8, 30); (9, 2); (10, 3); (11, 80)]].
Proof. change (dir_starts ex_sgm R) with [(0, 0); (0, 1)]. apply Forall2_cons; [vm_compute; reflexivity|]. apply Forall2_cons; [vm_compute; reflexivity|constructor]. Qed.
Definition ex_flat : sgm := Sgm 0 0 2 0 3 20 2 2 1 1 (Img 2 2 (fun _ _ => Box 0 0 2 0)).
Example ex_flat_ok : sgm_ok ex_flat /\ p1 ex_flat <= p2 ex_flat /\
  (forall x y, inside (bnd ex_flat) x y -> pix (bnd ex_flat) x y = Box 0 0 2 0) /\
  exists starts, calc_main_buf_size ex_flat = Ok (starts, 12) /\
  exists acc, accum_sgm ex_flat (evaluate_path_sse ex_flat) ex_cost ex_image acc.
Proof.
  assert (A : sgm_ok ex_flat).
  { unfold sgm_ok, ex_flat. cbn [mnx mny mxx mxy p1 p2 ocols orows bnd icols irows pix].
    repeat (split; [lia|]). intros c r _. unfold box_ok, in_box, range. cbn. split; [lia|split; [lia|intros; lia]]. }
  split; auto. split; [cbn; lia|]. split; [reflexivity|].
  eexists. split; [vm_compute; reflexivity|].
  eapply (accumulation_completes ex_flat); auto; try (vm_compute; reflexivity).
  - apply ex_sgm_ok.
  - intros c r. unfold ex_flat, ex_image, inside. cbn [ocols orows mincol minrow icols irows]. lia.
Qed.
Definition ex_site (b : box) (k gray : Z) : site := Site b (fun d => (fst d * k) mod 100) gray.
Definition ex_path : list site := [ex_site (Box 1 0 2 0) 37 9; ex_site (Box 0 0 2 0) 51 4; ex_site (Box 0 0 1 0) 90 4].
Example ex_path_ok : Forall (site_ok (Box 0 0 2 0)) ex_path /\ calm (Box 0 0 2 0) 3 20 ex_path /\
  path_cost (Box 0 0 2 0) 3 20 ex_path (1, 0) = 40 /\ energies_at 3 20 ex_path (1, 0) 40.
Proof.
  split; [|split; [|split]].
  - unfold ex_path, ex_site. repeat (constructor; [split; [exists (1, 0); unfold in_box; cbn; lia|
      intros d I; split; [unfold in_box in *; cbn in *; lia|cbn; pose proof (Z.mod_pos_bound (fst d * 37) 100 eq_refl);
        pose proof (Z.mod_pos_bound (fst d * 51) 100 eq_refl); pose proof (Z.mod_pos_bound (fst d * 90) 100 eq_refl); lia]]|]).
    constructor.
  - vm_compute. intuition discriminate.
  - vm_compute. reflexivity.
  - exists [(0, 0); (0, 0)]. split; [repeat constructor; unfold in_box; cbn; lia|vm_compute; reflexivity].
Qed.

(* Finding: path costs are not least energies in general.  The value 255 + p2 which
   stands for the disparities outside the previous box caps the costs of the
   previous pixel.  With boxes of one disparity each, all far apart, every pixel
   must pay the jump; but after a pixel of cost 255 the next pays nothing. *)
Definition far_sgm : sgm := Sgm 0 0 20 0 10 100 3 1 0 0 (Img 3 1 (fun c _ => Box (10 * c) 0 (10 * c) 0)).
Theorem jump_penalty_always_paid_refuted :
  ~ (forall cost image t starts, costs_ok cost -> image_ok far_sgm image ->
       lookup_table far_sgm = Ok t -> calc_main_buf_size far_sgm = Ok (starts, Z.of_nat (length cost)) ->
       forall buf, line_pass far_sgm (evaluate_path far_sgm) t starts 6 cost image [(0, 0); (1, 0); (2, 0)] = Ok buf ->
       exists e, is_min (energies 10 100 (map (site_at far_sgm starts cost image) [(1, 0); (0, 0)])) e /\
         is_min (energies_at 10 100 (map (site_at far_sgm starts cost image) [(2, 0); (1, 0); (0, 0)]) (20, 0))
           (nth 2 buf 0 + e)).
Proof.
  intros H. set (image := Img 3 1 (fun _ _ : Z => 0)).
  assert (A : costs_ok [0; 255; 7; 0; 0; 0]) by (repeat constructor; lia).
  assert (B : image_ok far_sgm image) by (intros c r; unfold far_sgm, image, inside; cbn; lia).
  destruct (lookup_table far_sgm) as [t| |] eqn:Et; [|vm_compute in Et; discriminate|vm_compute in Et; discriminate].
  destruct (calc_main_buf_size far_sgm) as [[starts main]| |] eqn:Es; [|vm_compute in Es; discriminate|vm_compute in Es; discriminate].
  specialize (H [0; 255; 7; 0; 0; 0] image t starts A B eq_refl).
  assert (main = 6) by (vm_compute in Es; congruence). subst main. specialize (H eq_refl [0; 355; 7; 0; 0; 0]).
  assert (Eb : line_pass far_sgm (evaluate_path far_sgm) t starts 6 [0; 255; 7; 0; 0; 0] image [(0, 0); (1, 0); (2, 0)] = Ok [0; 355; 7; 0; 0; 0]).
  { vm_compute in Et, Es. injection Et as <-. injection Es as <-. vm_compute. reflexivity. }
  destruct (H Eb) as (e & (M1 & M2) & (M3 & _)).
  assert (U : forall ds, choice (map (site_at far_sgm starts [0; 255; 7; 0; 0; 0] image) [(1, 0); (0, 0)]) ds -> ds = [(10, 0); (0, 0)]).
  { intros ds C. inversion C as [|? [a b] ? ? I C']; subst. inversion C' as [|? [a' b'] ? ? I' C'']; subst.
    inversion C''; subst. unfold in_box in *. cbn in I, I'. repeat f_equal; lia. }
  assert (U3 : forall ds, choice (map (site_at far_sgm starts [0; 255; 7; 0; 0; 0] image) [(2, 0); (1, 0); (0, 0)]) ((20, 0) :: ds) -> ds = [(10, 0); (0, 0)]).
  { intros ds C. inversion C; subst. apply U. auto. }
  destruct M1 as (ds & C & ->). rewrite (U ds C) in M3. destruct M3 as (ds' & C' & E'). rewrite (U3 ds' C') in E'.
  vm_compute in Es. injection Es as <-. vm_compute in E'. discriminate.
Qed.
Print Assumptions jump_penalty_always_paid_refuted.

(* Finding: penalties beyond what 16 bits can hold.  p2 is taken from the caller
   unchecked; with p2 = 65400 the value standing for infinity wraps to 119, and a
   pixel which keeps the disparity of the previous one is charged for it. *)
Theorem large_penalties_refuted :
  ~ (forall p t cost prior, 0 < p < 65536 -> 0 <= cost <= 255 -> 0 <= prior <= 255 ->
       let g := Sgm 0 0 0 0 10 p 1 1 0 0 (Img 1 1 (fun _ _ => Box 0 0 0 0)) in
       lookup_table g = Ok t ->
       evaluate_path g t (Box 0 0 0 0) (Box 0 0 0 0) [prior; 0] 0 [bad g] [cost] 0 1 0 = Ok ([prior; cost], [bad g])).
Proof.
  intros H. specialize (H 65400 (repeat 0 8) 10 200 ltac:(lia) ltac:(lia) ltac:(lia)). cbv zeta in H.
  specialize (H ltac:(vm_compute; reflexivity)). vm_compute in H. discriminate.
Qed.
Print Assumptions large_penalties_refuted.
