(* The local costs. *)
From Coq Require Import ZArith List Bool Lia.
From Verif Require Import Lib.Base Lib.Lists ImgMem.Model ImgMem.Spec Lib.Img Sgm.Model Sgm.Spec Sgm.Mem Sgm.Proofs Sgm.Pass Sgm.Accum
  SgmBox.Spec SgmSel.Model SgmSel.Spec SgmSel.Vec.
From Verif Require Census.Model Census.Spec Census.Proofs Census.Props.
Import ListNotations.
Local Open Scope Z_scope.
Module CM := Census.Model. Module CS := Census.Spec. Module CP := Census.Proofs. Module CQ := Census.Props.

Lemma raster_from {S} (P : Z -> S -> Prop) (body : Z -> Z -> S -> res S) r0 c0 w h s : 0 <= w -> 0 <= h -> P 0 s ->
  (forall row col s, 0 <= row < h -> 0 <= col < w -> P (row * w + col) s ->
     exists s', body (r0 + row) (c0 + col) s = Ok s' /\ P (row * w + col + 1) s') ->
  exists s', for_up r0 (r0 + h) (fun row s => for_up c0 (c0 + w) (fun col s => body row col s) s) s = Ok s' /\ P (h * w) s'.
Proof.
  intros W H P0 B.
  destruct (for_up_inv (fun row s => P ((row - r0) * w) s) (fun row s => for_up c0 (c0 + w) (fun col s => body row col s) s) r0 (r0 + h) s) as (s' & E & Q); [lia|now rewrite Z.sub_diag| |].
  - intros row t Hr Pt.
    destruct (for_up_inv (fun col s => P ((row - r0) * w + (col - c0)) s) (fun col s => body row col s) c0 (c0 + w) t) as (t' & E & Q); [lia|now rewrite Z.sub_diag, Z.add_0_r| |].
    + intros col u Hc Pu. destruct (B (row - r0) (col - c0) u ltac:(lia) ltac:(lia) Pu) as (u' & E & Q).
      replace (r0 + (row - r0)) with row in E by lia. replace (c0 + (col - c0)) with col in E by lia.
      exists u'. split; auto. now replace ((row - r0) * w + (col + 1 - c0)) with ((row - r0) * w + (col - c0) + 1) by lia.
    + exists t'. split; auto. replace ((row + 1 - r0) * w) with ((row - r0) * w + (c0 + w - c0)) by lia. exact Q.
  - exists s'. split; auto. replace (h * w) with ((r0 + h - r0) * w) by lia. exact Q.
Qed.

Lemma all_upd (P : Z -> Prop) l : forall i x, Forall P l -> P x -> Forall P (upd l i x).
Proof. induction l as [|a l IH]; intros [|i] x F X; cbn [upd]; auto; inversion F; constructor; auto. Qed.
Lemma box_cells_loop {A} (P : Z -> A -> Prop) b (body : Z -> Z -> A -> res A) s :
  bx0 b <= bx1 b + 1 -> by0 b <= by1 b + 1 -> P 0 s ->
  (forall dx dy s, in_box b (dx, dy) -> P (pos b (dx, dy)) s -> exists s', body dy dx s = Ok s' /\ P (pos b (dx, dy) + 1) s') ->
  exists s', for_up (by0 b) (by1 b + 1) (fun dy s => for_up (bx0 b) (bx1 b + 1) (fun dx s => body dy dx s) s) s = Ok s' /\ P (box_size b) s'.
Proof.
  intros X Y P0 B.
  destruct (raster_from P body (by0 b) (bx0 b) (bx1 b - bx0 b + 1) (by1 b - by0 b + 1) s) as (s' & E & Q); [lia|lia|exact P0| |].
  - intros row col t Hr Hc Pt. destruct (B (bx0 b + col) (by0 b + row) t) as (t' & E & Q).
    + unfold in_box. cbn [fst snd]. lia.
    + unfold pos. cbn [fst snd]. replace (by0 b + row - by0 b) with row by lia. now replace (bx0 b + col - bx0 b) with col by lia.
    + exists t'. split; auto. unfold pos in Q. cbn [fst snd] in Q. replace (by0 b + row - by0 b) with row in Q by lia. now replace (bx0 b + col - bx0 b) with col in Q by lia.
  - exists s'. replace (by0 b + (by1 b - by0 b + 1)) with (by1 b + 1) in E by lia. replace (bx0 b + (bx1 b - bx0 b + 1)) with (bx1 b + 1) in E by lia.
    split; auto. unfold box_size. now rewrite Z.mul_comm.
Qed.

Section G.
Variable g : sgm.
Hypothesis G : sgm_ok g.
Notation w := (ocols g).
Notation h := (orows g).
Notation size := (psize g).
Notation rank := (rank g).

Definition before (n : Z) : Z := zsum (map (fun i => size (i mod w, i / w)) (zrange 0 n)).
Lemma dims : 0 < w /\ 0 < h /\ icols (bnd g) = w /\ irows (bnd g) = h.
Proof. destruct G as (_ & _ & _ & _ & ? & ? & ? & ? & _); auto. Qed.
Lemma zsum_app l l' : zsum (l ++ l') = zsum l + zsum l'.
Proof. induction l as [|a l IH]; [reflexivity|]. cbn [app]. change (zsum (?x :: ?y)) with (x + zsum y). rewrite IH. change (zsum (a :: l)) with (a + zsum l). lia. Qed.
Lemma unrank c r : 0 <= c < w -> ((r * w + c) mod w, (r * w + c) / w) = (c, r).
Proof. intros Hc. rewrite Z.add_comm, Z.mod_add, Z.div_add, Z.mod_small, Z.div_small by lia. reflexivity. Qed.
Lemma before_step c r : 0 <= c < w -> 0 <= r -> before (r * w + c + 1) = before (r * w + c) + size (c, r).
Proof.
  intros Hc Hr. unfold before. rewrite zrange_snoc, map_app, zsum_app by nia. cbn [map]. rewrite unrank by auto.
  change (zsum [size (c, r)]) with (size (c, r) + 0). lia.
Qed.
Lemma rank_case p c r : inimg g p -> 0 <= c < w -> 0 <= r < h -> rank p < r * w + c + 1 -> p = (c, r) \/ rank p < r * w + c.
Proof.
  intros I Hc Hr H. destruct (Z.eq_dec (rank p) (r * w + c)) as [E|N]; [left|right; lia].
  apply (rank_inj g); auto. split; cbn [fst snd]; lia.
Qed.

Lemma calc_before starts main : calc_main_buf_size g = Ok (starts, main) ->
  (forall c r, 0 <= c < w -> 0 <= r < h -> pix starts c r = before (r * w + c)) /\ main = Z.max 6 (before (h * w)).
Proof.
  destruct dims as (W1 & W2 & W3 & W4).
  unfold calc_main_buf_size.
  match goal with |- context[for_up 0 h ?bd ?s0] => destruct (raster_loop (fun n (s : img Z * Z) => let '(m, k) := s in
     icols m = w /\ irows m = h /\ k = before n /\ forall p, inimg g p -> rank p < n -> pix m (fst p) (snd p) = before (rank p))
     (fun r c s => let '(m, n) := s in m <- put m c r n ;; b <- get (bnd g) c r ;; Ok (m, n + box_size b)) w h s0) as ([m k] & E & M1 & M2 & M3 & M4) end; [lia|lia| | |].
  - cbn. split; auto. split; auto. split; auto. unfold inimg, Accum.rank. intros p Hp C. nia.
  - intros r c [m k] Hr Hc (M1 & M2 & -> & M4).
    destruct (put_in m c r (before (r * w + c))) as (m' & Em & C1 & C2 & C3 & C4); [split; lia|].
    rewrite Em. cbn [bind]. rewrite get_in by (split; lia). cbn [bind]. eexists. split; [reflexivity|].
    split; [lia|]. split; [lia|]. split; [symmetry; apply before_step; lia|]. intros p Ip Hp.
    destruct (rank_case p c r Ip Hc Hr Hp) as [->|H']; [exact C3|]. rewrite C4; [auto|].
    destruct p as [a b]. cbn [fst snd]. destruct (Z.eq_dec a c) as [->|]; [right|left]; auto. intros ->. unfold Accum.rank in H'. cbn [fst snd] in H'. lia.
  - match type of E with ?l = _ => match goal with |- context[for_up 0 h ?f ?s0] => change (for_up 0 h f s0) with l end end.
    rewrite E. cbn [bind]. intros X. injection X as <- <-. split.
    + intros c r Hc Hr. apply (M4 (c, r)); [split; auto|]. unfold Accum.rank. cbn [fst snd]. nia.
    + rewrite M3. destruct (Z.ltb_spec (before (h * w)) 6); lia.
Qed.
Lemma before_mono a b : 0 <= a <= b -> b <= h * w -> before a <= before b.
Proof.
  intros H. replace b with (a + (b - a)) by lia. assert (0 <= b - a) as K by lia. revert K. generalize (b - a). intros n Kn.
  pattern n. apply natlike_ind; auto; [rewrite Z.add_0_r; lia|]. intros x Hx IH L. unfold Z.succ in *.
  specialize (IH ltac:(lia)). etransitivity; [exact IH|].
  destruct dims as (W1 & W2 & _).
  assert (Hm : 0 <= (a + x) mod w < w) by (apply Z.mod_pos_bound; lia).
  assert (Hd : 0 <= (a + x) / w < h) by (split; [apply Z.div_pos; lia|apply Z.div_lt_upper_bound; lia]).
  pose proof (before_step ((a + x) mod w) ((a + x) / w) Hm ltac:(lia)) as B.
  replace ((a + x) / w * w + (a + x) mod w) with (a + x) in B by (rewrite (Z.div_mod (a + x) w) at 1 by lia; lia).
  replace (a + (x + 1)) with (a + x + 1) by lia. rewrite B.
  pose proof (psize_nonneg g G ((a + x) mod w, (a + x) / w) (conj Hm Hd)). lia.
Qed.

(* the loop over the pixels and disparities *)
Lemma hamming_costs_ok bits lb rb kernel half (C : Z -> Z -> Z * Z -> Z) buf : half = Z.quot (kernel - 1) 2 ->
  before (h * w) <= len buf -> costs_ok buf ->
  (forall c r d, 0 <= c < w -> 0 <= r < h -> in_box (pix (bnd g) c r) d ->
     let x := mincol g + c - half in let y := minrow g + r - half in
     inside lb x y /\ inside rb (x + fst d) (y + snd d) /\
     CM.hamming bits (pix lb x y) (pix rb (x + fst d) (y + snd d)) = Ok (C c r d) /\ 0 <= C c r d <= 255) ->
  exists cost, hamming_costs bits lb rb (minrow g) (minrow g + h - 1) (mincol g) (mincol g + w - 1) kernel (bnd g) buf = Ok cost /\
    len cost = len buf /\ costs_ok cost /\
    forall c r d, 0 <= c < w -> 0 <= r < h -> in_box (pix (bnd g) c r) d ->
      at_ cost (before (r * w + c) + pos (pix (bnd g) c r) d) = C c r d.
Proof.
  intros -> LB CB HC. destruct dims as (W1 & W2 & W3 & W4).
  unfold hamming_costs. set (half := Z.quot (kernel - 1) 2) in *. clearbody half.
  replace (minrow g + h - 1 + 1) with (minrow g + h) by lia. replace (mincol g + w - 1 + 1) with (mincol g + w) by lia.
  pose (Q := fun (n : Z) (s : Z * list Z) (extra : Z) => fst s = before n + extra /\ len (snd s) = len buf /\ costs_ok (snd s) /\
     forall p d, inimg g p -> in_box (pbox g p) d -> rank p < n \/ (rank p = n /\ pos (pbox g p) d < extra) ->
       at_ (snd s) (before (rank p) + pos (pbox g p) d) = C (fst p) (snd p) d).
  match goal with |- context[for_up _ _ _ (0, buf)] =>
    destruct (raster_from (fun n s => Q n s 0)
    (fun r c s => b <- get (bnd g) (c - mincol g) (r - minrow g) ;;
           for_up (by0 b) (by1 b + 1) (fun dy s =>
             for_up (bx0 b) (bx1 b + 1) (fun dx s =>
               let '(i, buf) := s in
               x <- get lb (c - half) (r - half) ;;
               y <- get rb (c - half + dx) (r - half + dy) ;;
               d <- CM.hamming bits x y ;;
               buf <- wr buf i (d mod 256) ;;
               Ok (i + 1, buf)) s) s)
    (minrow g) (mincol g) w h (0, buf)) as ([i cost] & E & Q1 & Q2 & Q3 & Q4) end; [lia|lia| | |].
  - unfold Q. cbn [fst snd]. split; [reflexivity|]. split; auto. split; auto.
    intros p d Ip Id [X|[X Y]]; [unfold inimg, Accum.rank in *; nia|]. pose proof (pos_range _ _ Id). lia.
  - intros r c s Hr Hc Qs. replace (mincol g + c - mincol g) with c by lia. replace (minrow g + r - minrow g) with r by lia.
    rewrite get_in by (split; lia). cbn [bind].
    assert (Ip : inimg g (c, r)) by (split; cbn [fst snd]; lia).
    pose proof (pbox_ok g G (c, r) Ip) as (BX & BY & _). unfold pbox in BX, BY. cbn [fst snd] in BX, BY.
    pose proof (before_step c r Hc ltac:(lia)) as BS. pose proof (psize_nonneg g G (c, r) Ip) as SN.
    pose proof (before_mono (r * w + c + 1) (h * w) ltac:(nia) ltac:(lia)) as BM.
    destruct (box_cells_loop (fun k s => Q (r * w + c) s k) (pix (bnd g) c r)
      (fun dy dx s => let '(i, buf) := s in
               x <- get lb (mincol g + c - half) (minrow g + r - half) ;;
               y <- get rb (mincol g + c - half + dx) (minrow g + r - half + dy) ;;
               d <- CM.hamming bits x y ;;
               buf <- wr buf i (d mod 256) ;;
               Ok (i + 1, buf)) s BX BY) as (s' & Es & (R1 & R2 & R3 & R4)); [exact Qs| |].
    + intros dx dy [j bf] Id (S1 & S2 & S3 & S4). cbn [fst snd] in S1, S2, S3, S4.
      destruct (HC c r (dx, dy) Hc Hr Id) as (I1 & I2 & Hm & Hb). cbn [fst snd] in I2, Hm.
      rewrite get_in by auto. cbn [bind]. rewrite get_in by auto. cbn [bind]. rewrite Hm. cbn [bind].
      pose proof (pos_range _ _ Id) as PR. change (box_size (pix (bnd g) c r)) with (size (c, r)) in PR.
      assert (B0 : 0 <= before (r * w + c)) by (pose proof (before_mono 0 (r * w + c) ltac:(nia) ltac:(nia)); change (before 0) with 0 in *; lia).
      rewrite wr_in by lia. cbn [bind]. eexists. split; [reflexivity|]. rewrite Z.mod_small by lia.
      unfold Q. cbn [fst snd]. split; [lia|]. split; [now rewrite len_upd|]. split.
      * unfold costs_ok. apply all_upd; auto.
      * intros p d Ip' Id' X.
        assert (B0' : 0 <= before (rank p)).
        { pose proof (before_mono 0 (rank p)) as M. change (before 0) with 0 in M. apply M; unfold inimg, Accum.rank in *; nia. }
        pose proof (pos_range _ _ Id') as PR'.
        rewrite at_upd by lia.
        assert (K : (p = (c, r) /\ d = (dx, dy)) \/ (rank p < r * w + c \/ (rank p = r * w + c /\ pos (pbox g p) d < pos (pix (bnd g) c r) (dx, dy)))).
        { destruct X as [X|[X Y]]; auto. assert (p = (c, r)) as -> by (apply (rank_inj g); auto). unfold pbox in *. cbn [fst snd] in *.
          destruct (Z.eq_dec (pos (pix (bnd g) c r) d) (pos (pix (bnd g) c r) (dx, dy))) as [EQ|NE]; [left|right; right; lia].
          split; auto. apply (pos_inj (pix (bnd g) c r)); auto. }
        destruct K as [[-> ->]|K].
        -- rewrite S1. change (rank (c, r)) with (r * w + c). unfold pbox. cbn [fst snd]. now rewrite Z.eqb_refl.
        -- rewrite (proj2 (Z.eqb_neq _ _)); [apply S4; auto|]. rewrite S1. destruct K as [K|[K1 K2]].
           ++ assert (before (rank p + 1) <= before (r * w + c)) by (apply before_mono; unfold inimg, Accum.rank in *; nia).
              destruct p as [a b]. pose proof (before_step a b ltac:(apply Ip') ltac:(apply Ip')) as BS'.
              change (rank (a, b)) with (b * w + a) in *. change (box_size (pbox g (a, b))) with (size (a, b)) in PR'. lia.
           ++ rewrite K1. lia.
    + exists s'. split; [exact Es|]. unfold Q. rewrite BS. change (box_size (pix (bnd g) c r)) with (size (c, r)) in *. split; [lia|]. split; auto. split; auto.
      intros p d Ip' Id' X. pose proof (pos_range _ _ Id') as PR'. apply R4; auto.
      destruct X as [X|[X Y]]; [|lia]. destruct (rank_case p c r Ip' Hc Hr X) as [->|X']; [right|left; auto]. split; [reflexivity|exact (proj2 PR')].
  - rewrite E. cbn [bind snd]. exists cost. split; auto. cbn [fst snd] in *. split; auto. split; auto. intros c r d Hc Hr Id.
    apply (Q4 (c, r) d); auto; [split; auto|]. left. change (rank (c, r)) with (r * w + c). nia.
Qed.
End G.

Lemma fill_image_ok cols rows f v : 0 <= cols -> 0 <= rows ->
  (forall c r, 0 <= c < cols -> 0 <= r < rows -> f c r = Ok (v c r)) ->
  exists m, fill_image cols rows f = Ok m /\ icols m = cols /\ irows m = rows /\
    forall c r, 0 <= c < cols -> 0 <= r < rows -> pix m c r = v c r.
Proof.
  intros W H F. unfold fill_image.
  destruct (raster_loop (fun n m => icols m = cols /\ irows m = rows /\ forall c r, 0 <= c < cols -> 0 <= r < rows -> r * cols + c < n -> pix m c r = v c r)
    (fun r c m => v <- f c r ;; put m c r v) cols rows (Img cols rows (fun _ _ => 0))) as (m & E & M1 & M2 & M3); [lia|lia| | |].
  - cbn. split; auto. split; auto. intros. nia.
  - intros r c m Hr Hc (M1 & M2 & M3). rewrite F by auto. cbn [bind].
    destruct (put_in m c r (v c r)) as (m' & Em & C1 & C2 & C3 & C4); [split; lia|]. exists m'. split; auto. split; [lia|]. split; [lia|].
    intros a b Ha Hb L. destruct (Z.eq_dec a c) as [->|Na].
    + destruct (Z.eq_dec b r) as [->|Nb]; [exact C3|]. rewrite C4 by auto. apply M3; auto. nia.
    + rewrite C4 by auto. apply M3; auto. assert (r * cols + c <> b * cols + a); [|lia]. intros E. assert (r = b) by nia. nia.
  - exists m. split; [exact E|]. split; auto. split; auto. intros c r Hc Hr. apply M3; auto. nia.
Qed.

(* codes cut to a number of bits *)
Lemma bval_mod n : forall l, CP.bval l mod 2 ^ Z.of_nat n = CP.bval (firstn n l).
Proof.
  intros l. symmetry. apply (Z.mod_unique _ _ (CP.bval (skipn n l))).
  - left. pose proof (CP.bval_range (firstn n l)). pose proof (firstn_le_length n l).
    assert (2 ^ Z.of_nat (length (firstn n l)) <= 2 ^ Z.of_nat n) by (apply Z.pow_le_mono_r; lia). lia.
  - revert l. induction n as [|n IH]; intros l; [change (2 ^ Z.of_nat 0) with 1; cbn [firstn skipn CP.bval]; lia|].
    destruct l as [|b l]; [cbn [firstn skipn CP.bval]; lia|]. cbn [firstn skipn CP.bval].
    rewrite Nat2Z.inj_succ, Z.pow_succ_r by lia. rewrite (IH l) at 1. lia.
Qed.
Lemma classes_length t im x y l : length (flat_map (CQ.class_bits t im x y) l) = (2 * length l)%nat.
Proof. induction l as [|d l IH]; [reflexivity|]. cbn [flat_map CQ.class_bits app length]. lia. Qed.
Lemma classes_first t im x y n : forall l, firstn (2 * n) (flat_map (CQ.class_bits t im x y) l) = flat_map (CQ.class_bits t im x y) (firstn n l).
Proof.
  induction n as [|n IH]; intros l; [reflexivity|]. destruct l as [|d l]; [reflexivity|].
  replace (2 * S n)%nat with (S (S (2 * n))) by lia. cbn [flat_map CQ.class_bits app firstn]. now rewrite IH.
Qed.
Lemma class_values t im x y d : CS.class t im x y d = 0 \/ CS.class t im x y d = 1 \/ CS.class t im x y d = 2.
Proof. unfold CS.class. destruct (_ <? _); auto. destruct (_ <=? _); auto. Qed.
Lemma classes_differ t im x y im' x' y' l :
  CP.differ (flat_map (CQ.class_bits t im x y) l) (flat_map (CQ.class_bits t im' x' y') l) =
  zsum (map (fun d => Z.abs (CS.class t im x y d - CS.class t im' x' y' d)) l).
Proof.
  induction l as [|d l IH]; [reflexivity|]. cbn [flat_map CQ.class_bits app CP.differ map]. change (zsum (?a :: ?b)) with (a + zsum b). rewrite <- IH.
  generalize (CP.differ (flat_map (CQ.class_bits t im x y) l) (flat_map (CQ.class_bits t im' x' y') l)). intros z.
  destruct (class_values t im x y d) as [-> | [-> | ->]], (class_values t im' x' y' d) as [-> | [-> | ->]];
    cbn [Z.leb Z.compare Pos.compare Pos.compare_cont xorb Z.b2z Z.sub Z.opp Z.abs]; lia.
Qed.
Lemma hamming_bits n l l' : In (Z.of_nat n) [8; 16; 32; 64] -> length l = length l' ->
  CM.hamming (Z.of_nat n) (CM.wr (Z.of_nat n) (CP.bval l)) (CM.wr (Z.of_nat n) (CP.bval l')) = Ok (CP.differ (firstn n l) (firstn n l')).
Proof.
  intros Hn El. unfold CM.wr. rewrite !bval_mod. assert (8 <= Z.of_nat n) by (cbn in Hn; lia).
  assert (R : forall k : list bool, 0 <= CP.bval (firstn n k) < 2 ^ Z.of_nat n).
  { intros k. pose proof (CP.bval_range (firstn n k)). pose proof (firstn_le_length n k).
    assert (2 ^ Z.of_nat (length (firstn n k)) <= 2 ^ Z.of_nat n) by (apply Z.pow_le_mono_r; lia). lia. }
  rewrite CP.hamming_ones by auto. f_equal. rewrite Nat2Z.id. apply CP.ones_lxor; [rewrite !firstn_length; lia|apply firstn_le_length].
Qed.

Definition code_bits (kind : cost_kind) (t : Z) (k : CS.size) (im : img Z) (x y : Z) : list bool :=
  match kind with
  | Census => map (CS.brighter im x y) (CS.binary_pattern k)
  | _ => flat_map (CQ.class_bits t im x y) (CS.ternary_pattern k)
  end.
Definition code_fun (kind : cost_kind) (t : Z) (k : CS.size) (im : img Z) (x y : Z) : res Z :=
  match kind with Census => CS.binary_census k im x y | _ => CS.ternary_census k im x y t end.
Definition code_width (kind : cost_kind) (k : CS.size) : nat :=
  match kind, k with
  | Census, CS.S3 => 8 | Census, CS.S5 => 32 | Census, CS.S7 => 64 | Census, CS.S9 => 32
  | _, CS.S3 => 16 | _, CS.S5 => 32 | _, CS.S7 => 64 | _, CS.S9 => 64
  end%nat.
Lemma compute_costs_eq kind t k left right r0 r1 c0 c1 bn buf : kind <> MeanDiff ->
  compute_costs kind t (kernel_of k) left right r0 r1 c0 c1 bn buf =
  census_costs (Z.of_nat (code_width kind k)) (code_fun kind t k) left right r0 r1 c0 c1 (kernel_of k) bn buf.
Proof. intros N. destruct kind; try congruence; destruct k; reflexivity. Qed.
Lemma code_ok kind t k im x y : 0 <= t -> CS.room im (CS.radius k) x y -> code_fun kind t k im x y = Ok (CP.bval (code_bits kind t k im x y)).
Proof. intros T R. destruct kind; cbn [code_fun code_bits]; try (apply CQ.ternary_value; auto; fail); apply CQ.binary_value; auto. Qed.
Lemma count_le {A} (f : A -> bool) l : 0 <= Z.of_nat (length (filter f l)) <= Z.of_nat (length l).
Proof. pose proof (filter_len f l). lia. Qed.
Lemma match_bounds kind t k left right x y d : 0 <= match_cost kind t k left right x y d <= 64.
Proof.
  assert (TB : 0 <= zsum (map (fun o => Z.abs (CS.class t left x y o - CS.class t right (x + fst d) (y + snd d) o)) (used_pattern k)) <= 2 * Z.of_nat (length (used_pattern k))).
  { induction (used_pattern k) as [|o l IH]; [cbn; lia|]. cbn [map length]. change (zsum (?a :: ?b)) with (a + zsum b).
    destruct (class_values t left x y o) as [-> | [-> | ->]], (class_values t right (x + fst d) (y + snd d) o) as [-> | [-> | ->]]; lia. }
  assert (TL : Z.of_nat (length (used_pattern k)) <= 32) by (destruct k; vm_compute; discriminate).
  assert (BL : Z.of_nat (length (CS.binary_pattern k)) <= 64) by (destruct k; vm_compute; discriminate).
  destruct kind; cbn [match_cost]; try lia.
  pose proof (count_le (fun o => xorb (CS.brighter left x y o) (CS.brighter right (x + fst d) (y + snd d) o)) (CS.binary_pattern k)). lia.
Qed.
Lemma code_distance kind t k left right x y d : kind <> MeanDiff ->
  let n := Z.of_nat (code_width kind k) in
  CM.hamming n (CM.wr n (CP.bval (code_bits kind t k left x y))) (CM.wr n (CP.bval (code_bits kind t k right (x + fst d) (y + snd d)))) =
  Ok (match_cost kind t k left right x y d).
Proof.
  intros N n. unfold n. rewrite hamming_bits.
  - f_equal. destruct kind; try congruence; cbn [code_bits match_cost].
    + rewrite !firstn_all2 by (rewrite map_length; destruct k; vm_compute; lia). apply CQ.differ_count.
    + assert (EP : forall im x y, firstn (code_width Ternary k) (flat_map (CQ.class_bits t im x y) (CS.ternary_pattern k)) =
        flat_map (CQ.class_bits t im x y) (used_pattern k)).
      { intros im a b. destruct k; cbn [code_width used_pattern].
        - apply firstn_all2. rewrite classes_length. vm_compute; lia.
        - apply (classes_first t im a b 16).
        - apply firstn_all2. rewrite classes_length. vm_compute; lia.
        - apply firstn_all2. rewrite classes_length. vm_compute; lia. }
      rewrite !EP. apply classes_differ.
  - destruct kind, k; cbn; auto.
  - destruct kind; cbn [code_bits]; rewrite ?map_length, ?classes_length; auto.
Qed.

Lemma local_costs_ok g kind t k left right starts main buf : sgm_ok g -> kind <> MeanDiff -> 0 <= t ->
  (forall c r, 0 <= c < ocols g -> 0 <= r < orows g -> CS.room left (CS.radius k) (c + mincol g) (r + minrow g) /\
     forall d, in_box (range g) d -> CS.room right (CS.radius k) (c + mincol g + fst d) (r + minrow g + snd d)) ->
  calc_main_buf_size g = Ok (starts, main) -> Z.of_nat (length buf) = main -> costs_ok buf ->
  exists cost,
    compute_costs kind t (kernel_of k) left right (minrow g) (minrow g + orows g - 1) (mincol g) (mincol g + ocols g - 1) (bnd g) buf = Ok cost /\
    Z.of_nat (length cost) = main /\ costs_ok cost /\
    forall c r d, 0 <= c < ocols g -> 0 <= r < orows g -> in_box (pix (bnd g) c r) d ->
      nth (Z.to_nat (pix starts c r + pos (pix (bnd g) c r) d)) cost 0 = match_cost kind t k left right (c + mincol g) (r + minrow g) d.
Proof.
  intros G NK T RM EC Lb Cb. destruct (dims g G) as (W1 & W2 & W3 & W4). destruct (calc_before g G starts main EC) as [ES EM].
  rewrite compute_costs_eq by auto. unfold census_costs.
  assert (HF : Z.quot (kernel_of k - 1) 2 = CS.radius k) by (destruct k; reflexivity). rewrite HF.
  assert (R0 : 1 <= CS.radius k) by (destruct k; cbn; lia).
  set (n := Z.of_nat (code_width kind k)).
  assert (FI : forall im, CS.radius k * 2 <= icols im -> CS.radius k * 2 <= irows im ->
    exists m, fill_image (icols im - 2 * CS.radius k) (irows im - 2 * CS.radius k)
       (fun c r => v <- code_fun kind t k im (c + CS.radius k) (r + CS.radius k) ;; Ok (CM.wr n v)) = Ok m /\
      icols m = icols im - 2 * CS.radius k /\ irows m = irows im - 2 * CS.radius k /\
      forall c r, 0 <= c < icols im - 2 * CS.radius k -> 0 <= r < irows im - 2 * CS.radius k ->
        pix m c r = CM.wr n (CP.bval (code_bits kind t k im (c + CS.radius k) (r + CS.radius k)))).
  { intros im A B. apply fill_image_ok; try lia. intros c r Hc Hr. rewrite code_ok; [reflexivity|auto|]. unfold CS.room. lia. }
  assert (G0 : in_box (range g) (mnx g, mny g)).
  { unfold in_box, range. cbn. destruct G as (? & ? & _). lia. }
  destruct (RM 0 0 ltac:(lia) ltac:(lia)) as [RL RR]. specialize (RR _ G0). unfold CS.room in RL, RR.
  destruct (FI left ltac:(lia) ltac:(lia)) as (lb & El & L1 & L2 & L3). destruct (FI right ltac:(lia) ltac:(lia)) as (rb & Er & Q1 & Q2 & Q3).
  rewrite El. cbn [bind]. rewrite Er. cbn [bind].
  destruct (hamming_costs_ok g G n lb rb (kernel_of k) (CS.radius k) (fun c r d => match_cost kind t k left right (c + mincol g) (r + minrow g) d) buf) as (cost & E & C1 & C2 & C3); auto.
  - unfold len. lia.
  - intros c r d Hc Hr Id x y. destruct (RM c r Hc Hr) as [ML MR].
    assert (IR : in_box (range g) d) by (destruct (pbox_ok g G (c, r) (conj Hc Hr)) as (_ & _ & K); apply K; exact Id).
    specialize (MR d IR). unfold CS.room in ML, MR.
    assert (Il : 0 <= x < icols left - 2 * CS.radius k /\ 0 <= y < irows left - 2 * CS.radius k) by (unfold x, y; lia).
    assert (Ir : 0 <= x + fst d < icols right - 2 * CS.radius k /\ 0 <= y + snd d < irows right - 2 * CS.radius k) by (unfold x, y; lia).
    split; [split; lia|]. split; [split; lia|]. split; [|pose proof (match_bounds kind t k left right (c + mincol g) (r + minrow g) d); lia].
    rewrite L3, Q3 by lia. unfold n.
    replace (x + CS.radius k) with (c + mincol g) by (unfold x; lia). replace (y + CS.radius k) with (r + minrow g) by (unfold y; lia).
    replace (x + fst d + CS.radius k) with (c + mincol g + fst d) by (unfold x; lia). replace (y + snd d + CS.radius k) with (r + minrow g + snd d) by (unfold y; lia).
    apply code_distance; auto.
  - exists cost. split; [exact E|]. split; [unfold len in C1; lia|]. split; auto. intros c r d Hc Hr Id.
    rewrite ES by auto. now apply C3.
Qed.

(* accumulated costs depend on the costs of the disparities of the boxes only *)
Lemma minl_same v l l' : (forall x, In x l <-> In x l') -> minl v l = minl v l'.
Proof.
  intros E. destruct (minl_spec v l) as (A & B & C). apply minl_unique; auto; [destruct A; [auto|right; now apply E]|]. intros x I. apply C, E, I.
Qed.
Lemma path_cost_ext R q1 q2 past past' : Forall2 (fun s s' => s_box s = s_box s' /\ s_gray s = s_gray s' /\ forall d, in_box (s_box s) d -> s_cost s d = s_cost s' d) past past' ->
  forall d, match past with s :: _ => in_box (s_box s) d | [] => True end -> path_cost R q1 q2 past d = path_cost R q1 q2 past' d.
Proof.
  induction 1 as [|s s' past past' (EB & EG & EC) F IH]; intros d Hd; [reflexivity|].
  cbn [path_cost]. destruct F as [|q q' rest rest' (QB & QG & QC) F]; [now apply EC|].
  unfold step_cost. rewrite (EC d Hd). unfold grad. rewrite EG, QG, <- QB.
  assert (EL : forall e, in_box (s_box q) e -> path_cost R q1 q2 (q :: rest) e = path_cost R q1 q2 (q' :: rest') e) by (intros e He; apply IH; exact He).
  assert (PL : prior_least (s_box q) (path_cost R q1 q2 (q :: rest)) q2 = prior_least (s_box q) (path_cost R q1 q2 (q' :: rest')) q2).
  { unfold prior_least. f_equal. apply map_ext_in. intros e Ie. apply in_cells in Ie. auto. }
  rewrite PL. do 2 f_equal. f_equal. apply map_ext. intros e. unfold prior_costs. destruct (in_boxb (s_box q) e) eqn:B; [|reflexivity].
  apply in_boxb_iff in B. rewrite (EL e B). reflexivity.
Qed.
