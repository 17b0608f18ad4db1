(* The lookup table and evaluate_path. *)
From Coq Require Import ZArith List Bool Lia.
From Verif Require Import Lib.Base Lib.Lists ImgMem.Model Lib.Img Sgm.Model Sgm.Spec Sgm.Mem.
Import ListNotations.
Local Open Scope Z_scope.

Lemma u16_id z : 0 <= z < 65536 -> u16 z = z.
Proof. intros. unfold u16. apply Z.mod_small. lia. Qed.

Ltac min_eq := apply Z.le_antisymm; repeat apply Z.min_glb; rewrite !Z.min_le_iff;
  match goal with |- context[_ <= ?x] => pose proof (Z.le_refl x); tauto end.
Lemma eight_min (a : list Z) : length a = 8%nat -> minl (nth 0 a 0) (tl a) =
  Z.min (Z.min (Z.min (Z.min (Z.min (Z.min (Z.min (nth 0 a 0) (nth 1 a 0)) (nth 2 a 0)) (nth 3 a 0)) (nth 4 a 0))
    (nth 5 a 0)) (nth 6 a 0)) (nth 7 a 0).
Proof.
  do 8 (destruct a as [|? a]; [discriminate|]). destruct a; [|discriminate]. intros _.
  cbn [nth tl minl fold_right]. min_eq.
Qed.
Lemma eight_min' (a : list Z) : length a = 8%nat -> minl (nth 0 a 0) (tl a) =
  Z.min (Z.min (Z.min (nth 0 a 0) (nth 1 a 0)) (Z.min (nth 2 a 0) (nth 3 a 0)))
    (Z.min (Z.min (nth 4 a 0) (nth 5 a 0)) (Z.min (nth 6 a 0) (nth 7 a 0))).
Proof.
  do 8 (destruct a as [|? a]; [discriminate|]). destruct a; [|discriminate]. intros _.
  cbn [nth tl minl fold_right]. min_eq.
Qed.

Section E.
Variable g : sgm.
Hypothesis HX : mnx g <= mxx g.
Hypothesis HY : mny g <= mxy g.
Let R := range g.

Lemma wr8 t base a0 a1 a2 a3 a4 a5 a6 a7 : 0 <= base -> base + 8 <= len t ->
  exists t', (t <- wr t (base + 0) a0 ;; t <- wr t (base + 1) a1 ;; t <- wr t (base + 2) a2 ;;
              t <- wr t (base + 3) a3 ;; t <- wr t (base + 4) a4 ;; t <- wr t (base + 5) a5 ;;
              t <- wr t (base + 6) a6 ;; wr t (base + 7) a7) = Ok t' /\
    len t' = len t /\
    (forall k, 0 <= k < 8 -> at_ t' (base + k) = nth (Z.to_nat k) [a0; a1; a2; a3; a4; a5; a6; a7] 0) /\
    (forall i, 0 <= i -> i < base \/ base + 8 <= i -> at_ t' i = at_ t i).
Proof.
  intros H0 H1.
  rewrite wr_in by lia. cbn [bind].
  rewrite wr_in by (rewrite ?len_upd; lia). cbn [bind].
  rewrite wr_in by (rewrite ?len_upd; lia). cbn [bind].
  rewrite wr_in by (rewrite ?len_upd; lia). cbn [bind].
  rewrite wr_in by (rewrite ?len_upd; lia). cbn [bind].
  rewrite wr_in by (rewrite ?len_upd; lia). cbn [bind].
  rewrite wr_in by (rewrite ?len_upd; lia). cbn [bind].
  rewrite wr_in by (rewrite ?len_upd; lia).
  eexists. split; [reflexivity|]. split; [rewrite ?len_upd; auto|]. split.
  - intros k Hk. rewrite !at_upd by (rewrite ?len_upd; lia).
    assert (C : k = 0 \/ k = 1 \/ k = 2 \/ k = 3 \/ k = 4 \/ k = 5 \/ k = 6 \/ k = 7) by lia.
    repeat (destruct C as [->|C]); [..|subst k];
    repeat match goal with |- context[?a =? ?b] => first
      [ rewrite (proj2 (Z.eqb_eq a b)) by lia | rewrite (proj2 (Z.eqb_neq a b)) by lia ] end; reflexivity.
  - intros i Hi Ho. rewrite !at_upd by (rewrite ?len_upd; lia).
    repeat match goal with |- context[?a =? ?b] => rewrite (proj2 (Z.eqb_neq a b)) by lia end. reflexivity.
Qed.

Definition table_ok (t : list Z) : Prop :=
  len t = nd g * 8 /\
  forall d k, in_box R d -> 0 <= k < 8 ->
    at_ t (pos R d * 8 + k) = pos R (towards R d (nth (Z.to_nat k) compass (0, 0))).

Lemma table_row_ok dx dy d t : in_box R (dx, dy) -> 0 <= d -> d * 8 + 8 <= len t ->
  exists t', table_row g dx dy d t = Ok t' /\ len t' = len t /\
    (forall k, 0 <= k < 8 -> at_ t' (d * 8 + k) = pos R (towards R (dx, dy) (nth (Z.to_nat k) compass (0, 0)))) /\
    (forall i, 0 <= i -> i < d * 8 \/ d * 8 + 8 <= i -> at_ t' i = at_ t i).
Proof.
  intros I Hd Hl. unfold table_row.
  match goal with |- context[wr t (d * 8 + 0) ?a0] =>
  match goal with |- context[wr _ (d * 8 + 1) ?a1] =>
  match goal with |- context[wr _ (d * 8 + 2) ?a2] =>
  match goal with |- context[wr _ (d * 8 + 3) ?a3] =>
  match goal with |- context[wr _ (d * 8 + 4) ?a4] =>
  match goal with |- context[wr _ (d * 8 + 5) ?a5] =>
  match goal with |- context[wr _ (d * 8 + 6) ?a6] =>
  match goal with |- context[wr _ (d * 8 + 7) ?a7] =>
    destruct (wr8 t (d * 8) a0 a1 a2 a3 a4 a5 a6 a7) as (t' & E & Lt & V & U); [lia|lia|]
  end end end end end end end end.
  exists t'. split; [exact E|]. split; [auto|]. split; [|auto].
  intros k Hk. rewrite V by auto. clear E V U.
  unfold in_box, R, range in I. cbn [fst snd bx0 bx1 by0 by1] in I.
  assert (XL : clamp_less dx (mnx g) = clampz (mnx g) (mxx g) (dx + -1))
    by (unfold clamp_less, clampz; destruct (Z.ltb_spec (dx - 1) (mnx g)); lia).
  assert (YL : clamp_less dy (mny g) = clampz (mny g) (mxy g) (dy + -1))
    by (unfold clamp_less, clampz; destruct (Z.ltb_spec (dy - 1) (mny g)); lia).
  assert (XM : clamp_more dx (mxx g) = clampz (mnx g) (mxx g) (dx + 1))
    by (unfold clamp_more, clampz; rewrite Z.gtb_ltb; destruct (Z.ltb_spec (mxx g) (dx + 1)); lia).
  assert (YM : clamp_more dy (mxy g) = clampz (mny g) (mxy g) (dy + 1))
    by (unfold clamp_more, clampz; rewrite Z.gtb_ltb; destruct (Z.ltb_spec (mxy g) (dy + 1)); lia).
  assert (X0 : dx = clampz (mnx g) (mxx g) (dx + 0)) by (unfold clampz; lia).
  assert (Y0 : dy = clampz (mny g) (mxy g) (dy + 0)) by (unfold clampz; lia).
  assert (C : k = 0 \/ k = 1 \/ k = 2 \/ k = 3 \/ k = 4 \/ k = 5 \/ k = 6 \/ k = 7) by lia.
  repeat (destruct C as [->|C]); [..|subst k].
  all: unfold pos, towards, R, range, ndx, compass;
    match goal with |- context[Z.to_nat ?z] => let n := eval compute in (Z.to_nat z) in change (Z.to_nat z) with n end;
    cbn [fst snd bx0 bx1 by0 by1 nth]; rewrite ?XL, ?YL, ?XM, ?YM, <- ?X0, <- ?Y0; ring.
Qed.

Lemma lookup_table_ok : exists t, lookup_table g = Ok t /\ table_ok t.
Proof.
  assert (WX : 0 < ndx g) by (unfold ndx; lia). assert (WY : 0 < ndy g) by (unfold ndy; lia).
  assert (N : 0 < nd g) by (unfold nd; nia).
  pose (P := fun (n : Z) (s : Z * list Z) => fst s = n /\ len (snd s) = nd g * 8 /\
     forall d k, in_box R d -> pos R d < n -> 0 <= k < 8 ->
       at_ (snd s) (pos R d * 8 + k) = pos R (towards R d (nth (Z.to_nat k) compass (0, 0)))).
  unfold lookup_table.
  match goal with |- context[for_up (mny g) (mxy g + 1) ?bd ?s0] =>
    destruct (for_up_inv (fun dy s => P ((dy - mny g) * ndx g) s) bd (mny g) (mxy g + 1) s0)
      as (s & E & Q1 & Q2 & Q3); [lia| | |] end.
  - unfold P. cbn [fst snd]. split; [ring|]. rewrite len_repeat. split; [lia|].
    intros d k I Hd. exfalso. pose proof (pos_range _ _ I). lia.
  - intros dy s Hdy Ps.
    match goal with |- context[for_up (mnx g) (mxx g + 1) ?bd s] =>
      destruct (for_up_inv (fun dx s => P ((dy - mny g) * ndx g + (dx - mnx g)) s) bd (mnx g) (mxx g + 1) s)
        as (s' & E' & Q); [lia| | |] end.
    + replace ((dy - mny g) * ndx g + (mnx g - mnx g)) with ((dy - mny g) * ndx g) by ring. exact Ps.
    + intros dx [n t] Hdx (A & B & C). cbn [fst snd] in *. subst n.
      assert (I : in_box R (dx, dy)) by (unfold in_box, R, range; cbn [fst snd bx0 bx1 by0 by1]; lia).
      assert (EP : (dy - mny g) * ndx g + (dx - mnx g) = pos R (dx, dy))
        by (unfold pos, R, range, ndx; cbn [fst snd bx0 bx1 by0 by1]; ring).
      pose proof (pos_range _ _ I) as PR. unfold R in PR. rewrite <- nd_size in PR. fold R in PR.
      rewrite EP in *.
      destruct (table_row_ok dx dy (pos R (dx, dy)) t I) as (t' & Et & Lt & V & U); [lia|lia|].
      rewrite Et. cbn [bind]. eexists. split; [reflexivity|]. unfold P. cbn [fst snd].
      split; [rewrite <- EP; ring|]. split; [lia|].
      intros d k Id Hd Hk.
      assert (Hd' : pos R d <= pos R (dx, dy)) by lia.
      destruct (Z.eq_dec (pos R d) (pos R (dx, dy))) as [Ed|Nd].
      * apply pos_inj in Ed; auto. subst d. apply V; auto.
      * pose proof (pos_range _ _ Id). rewrite U by lia. apply C; auto. lia.
    + exists s'. split; [exact E'|].
      replace ((dy + 1 - mny g) * ndx g) with ((dy - mny g) * ndx g + (mxx g + 1 - mnx g)) by (unfold ndx; ring).
      exact Q.
  - rewrite E. cbn [bind]. exists (snd s). split; auto. split; auto.
    intros d k I Hk. apply Q3; auto. pose proof (pos_range _ _ I) as PR. unfold R in PR.
    rewrite <- nd_size in PR. fold R in PR.
    replace ((mxy g + 1 - mny g) * ndx g) with (nd g) by (unfold nd, ndx, ndy; ring). lia.
Qed.

(* one step of the recurrence, in terms of the costs of the previous pixel *)
Definition prior_at (bp : box) (L : Z * Z -> Z) (bd : Z) (e : Z * Z) : Z := if in_boxb bp e then L e else bd.
Definition prior_min (bp : box) (L : Z * Z -> Z) (bd : Z) : Z := minl bd (map L (cells bp)).
Definition step_low (bp : box) (L : Z * Z -> Z) (bd q : Z) (d : Z * Z) : Z :=
  minl (prior_min bp L bd + q)
    (map (fun e => prior_at bp L bd e + (if same d e then 0 else p1 g)) (filter (near d) (cells R))).

Lemma p2_mod_eq gr : 0 <= p2 g -> p2_mod g gr = jump_penalty (p1 g) (p2 g) gr.
Proof.
  intros. unfold p2_mod, jump_penalty. destruct (Z.ltb_spec 0 gr).
  - destruct (Z.ltb_spec (p2 g / gr) (p1 g)); lia.
  - destruct (Z.ltb_spec (p2 g) (p1 g)); lia.
Qed.
Lemma jump_bounds gr : 0 <= p1 g -> 0 <= p2 g -> 0 <= gr ->
  p1 g <= jump_penalty (p1 g) (p2 g) gr <= Z.max (p1 g) (p2 g).
Proof.
  intros H1 H2 Hg. unfold jump_penalty. destruct (Z.ltb_spec 0 gr); [|lia].
  assert (p2 g / gr <= p2 g) by (apply Z.div_le_upper_bound; nia). lia.
Qed.

Section P.
Hypothesis P1 : 0 <= p1 g <= 7936.
Hypothesis P2 : 0 <= p2 g <= 7936.
Let top := 255 + Z.max (p1 g) (p2 g).

Lemma bad_eq : bad g = 255 + p2 g.
Proof. unfold bad. apply u16_id. lia. Qed.

Section C.
Variables (bp : box) (L : Z * Z -> Z).
Hypothesis Bp : box_ok R bp.
Hypothesis HL : forall e, in_box bp e -> 0 <= L e <= top.

Lemma prior_min_spec :
  let m := prior_min bp L (255 + p2 g) in
  0 <= m <= 255 + p2 g /\ (forall e, in_box bp e -> m <= L e) /\
  (m = 255 + p2 g \/ exists e, in_box bp e /\ m = L e).
Proof.
  cbv zeta. unfold prior_min. destruct (minl_spec (255 + p2 g) (map L (cells bp))) as (A & B & C).
  assert (D : minl (255 + p2 g) (map L (cells bp)) = 255 + p2 g \/
          exists e, in_box bp e /\ minl (255 + p2 g) (map L (cells bp)) = L e).
  { destruct A as [A|A]; auto. apply in_map_iff in A as (e & E & I). right. exists e. rewrite in_cells in I. auto. }
  split; [|split; auto].
  - destruct D as [D|(e & I & D)]; [lia|]. specialize (HL e I). lia.
  - intros e I. apply C. apply in_map. now rewrite in_cells.
Qed.

Lemma load_prior_ok buf po full :
  0 <= po -> po + box_size bp <= len buf ->
  (forall e, in_box bp e -> at_ buf (po + pos bp e) = L e) ->
  len full = nd g -> (forall i, 0 <= i < nd g -> at_ full i = bad g) ->
  exists full', load_prior g bp buf po full = Ok (prior_min bp L (bad g), full') /\ len full' = nd g /\
    (forall e, in_box R e -> at_ full' (pos R e) = prior_at bp L (bad g) e).
Proof.
  intros Hpo Hl HB Lf Hf. destruct Bp as (B1 & B2 & B3). unfold load_prior.
  match goal with |- context[box_loop g bp ?body ?s0] =>
   destruct (box_loop_inv g (fun k (s : Z * Z * list Z) =>
     let '(d, mn, full) := s in d = k /\ len full = nd g /\
       (mn = bad g \/ exists e, in_box bp e /\ pos bp e < k /\ mn = L e) /\ mn <= bad g /\
       (forall e, in_box bp e -> pos bp e < k -> mn <= L e) /\
       (forall e, in_box R e -> at_ full (pos R e) =
          if in_boxb bp e && (pos bp e <? k) then L e else bad g)) bp body s0)
     as ([[d mn] f] & E & Q1 & Q2 & Q3 & Q4 & Q5 & Q6) end; auto.
  - split; [auto|]. split; [auto|]. split; [auto|]. split; [lia|]. split.
    + intros e I Hk. pose proof (pos_range _ _ I). lia.
    + intros e I. rewrite Hf by (rewrite (nd_size g); apply pos_range; auto).
      destruct (in_boxb bp e) eqn:Eb; cbn [andb]; auto. apply in_boxb_iff in Eb.
      destruct (Z.ltb_spec (pos bp e) 0); auto. pose proof (pos_range _ _ Eb). lia.
  - intros dx dy [[d mn] f] I (-> & Lf' & S1 & S2 & S3 & S4).
    pose proof (pos_range _ _ I) as PI. pose proof (B3 _ I) as IR. pose proof (pos_range _ _ IR) as PR.
    unfold R in PR. rewrite <- nd_size in PR. rewrite <- xy_pos in PR.
    rewrite rd_in by lia. cbn [bind]. rewrite wr_in by lia. cbn [bind].
    eexists. split; [reflexivity|]. cbv beta iota. split; [reflexivity|]. split; [rewrite len_upd; auto|].
    rewrite HB by auto. destruct (Z.ltb_spec (L (dx, dy)) mn) as [Lt|Ge].
    + split; [right; exists (dx, dy); split; [auto|split; [lia|auto]]|]. split; [lia|]. split.
      * intros e Ie He. destruct (Z.eq_dec (pos bp e) (pos bp (dx, dy))) as [Ee|Ne].
        -- apply pos_inj in Ee; auto. subst e. lia.
        -- specialize (S3 e Ie ltac:(lia)). lia.
      * intros e Ie. pose proof (pos_range _ _ Ie). rewrite at_upd by lia. rewrite xy_pos. fold R.
        destruct (Z.eqb_spec (pos R e) (pos R (dx, dy))) as [Ee|Ne].
        -- apply pos_inj in Ee; auto. subst e.
           rewrite (proj2 (in_boxb_iff _ _) I), (proj2 (Z.ltb_lt _ _)) by lia. reflexivity.
        -- rewrite S4 by auto. destruct (in_boxb bp e) eqn:Eb; cbn [andb]; auto. apply in_boxb_iff in Eb.
           assert (pos bp e <> pos bp (dx, dy)) by (intros C; apply pos_inj in C; auto; subst; auto).
           destruct (Z.ltb_spec (pos bp e) (pos bp (dx, dy))), (Z.ltb_spec (pos bp e) (pos bp (dx, dy) + 1)); auto; lia.
    + split; [destruct S1 as [S1|(e & ? & ? & ?)]; [left; auto|right; exists e; split; [auto|split; [lia|auto]]]|].
      split; [lia|]. split.
      * intros e Ie He. destruct (Z.eq_dec (pos bp e) (pos bp (dx, dy))) as [Ee|Ne].
        -- apply pos_inj in Ee; auto. subst e. lia.
        -- apply S3; auto. lia.
      * intros e Ie. pose proof (pos_range _ _ Ie). rewrite at_upd by lia. rewrite xy_pos. fold R.
        destruct (Z.eqb_spec (pos R e) (pos R (dx, dy))) as [Ee|Ne].
        -- apply pos_inj in Ee; auto. subst e.
           rewrite (proj2 (in_boxb_iff _ _) I), (proj2 (Z.ltb_lt _ _)) by lia. reflexivity.
        -- rewrite S4 by auto. destruct (in_boxb bp e) eqn:Eb; cbn [andb]; auto. apply in_boxb_iff in Eb.
           assert (pos bp e <> pos bp (dx, dy)) by (intros C; apply pos_inj in C; auto; subst; auto).
           destruct (Z.ltb_spec (pos bp e) (pos bp (dx, dy))), (Z.ltb_spec (pos bp e) (pos bp (dx, dy) + 1)); auto; lia.
  - rewrite E. cbn [bind]. exists f. split; [|split; auto].
    + do 2 f_equal. unfold prior_min. apply minl_unique.
      * destruct Q3 as [->|(e & Ie & _ & ->)]; [left; auto|right; apply in_map; now apply in_cells].
      * auto.
      * intros x Ix. apply in_map_iff in Ix as (e & <- & Ie). apply in_cells in Ie. apply Q5; auto.
        pose proof (pos_range _ _ Ie). lia.
    + intros e Ie. rewrite Q6 by auto. unfold prior_at. destruct (in_boxb bp e) eqn:Eb; cbn [andb]; auto.
      apply in_boxb_iff in Eb. pose proof (pos_range _ _ Eb). rewrite (proj2 (Z.ltb_lt _ _)) by lia. auto.
Qed.

Lemma reset_prior_ok full : len full = nd g ->
  (forall e, in_box R e -> at_ full (pos R e) = prior_at bp L (bad g) e) ->
  exists full', reset_prior g bp full = Ok full' /\ len full' = nd g /\ (forall i, 0 <= i < nd g -> at_ full' i = bad g).
Proof.
  intros Lf Hf. destruct Bp as (B1 & B2 & B3). unfold reset_prior.
  match goal with |- context[box_loop g bp ?body ?s0] =>
   destruct (box_loop_inv g (fun k (full : list Z) => len full = nd g /\
       (forall e, in_box R e -> at_ full (pos R e) =
          if in_boxb bp e && (k <=? pos bp e) then L e else bad g)) bp body s0)
     as (f & E & Q1 & Q2) end; auto.
  - split; auto. intros e I. rewrite Hf by auto. unfold prior_at. destruct (in_boxb bp e) eqn:Eb; cbn [andb]; auto.
    apply in_boxb_iff in Eb. pose proof (pos_range _ _ Eb). rewrite (proj2 (Z.leb_le _ _)) by lia. auto.
  - intros dx dy f I (Lf' & S4).
    pose proof (B3 _ I) as IR. pose proof (pos_range _ _ IR) as PR.
    unfold R in PR. rewrite <- nd_size in PR. rewrite <- xy_pos in PR.
    rewrite wr_in by lia. eexists. split; [reflexivity|]. split; [rewrite len_upd; auto|].
    intros e Ie. pose proof (pos_range _ _ Ie). rewrite at_upd by lia. rewrite xy_pos. fold R.
    destruct (Z.eqb_spec (pos R e) (pos R (dx, dy))) as [Ee|Ne].
    + apply pos_inj in Ee; auto. subst e.
      rewrite (proj2 (in_boxb_iff _ _) I), (proj2 (Z.leb_gt _ _)) by lia. reflexivity.
    + rewrite S4 by auto. destruct (in_boxb bp e) eqn:Eb; cbn [andb]; auto. apply in_boxb_iff in Eb.
      assert (pos bp e <> pos bp (dx, dy)) by (intros C; apply pos_inj in C; auto; subst; auto).
      destruct (Z.leb_spec (pos bp (dx, dy)) (pos bp e)), (Z.leb_spec (pos bp (dx, dy) + 1) (pos bp e)); auto; lia.
  - exists f. split; auto. split; auto. intros i Hi. rewrite (nd_size g) in Hi.
    destruct (pos_surj (range g) i) as (e & Ie & <-); try (unfold range; cbn [bx0 bx1 by0 by1]; lia); auto.
    fold R. rewrite Q2 by auto. destruct (in_boxb bp e) eqn:Eb; cbn [andb]; auto.
    apply in_boxb_iff in Eb. pose proof (pos_range _ _ Eb). rewrite (proj2 (Z.leb_gt _ _)) by lia. auto.
Qed.

Lemma towards_in d o : in_box R (towards R d o).
Proof.
  unfold in_box, towards, R, range, clampz. cbn [fst snd bx0 bx1 by0 by1]. lia.
Qed.
Lemma towards_near d o : in_box R d -> In o compass -> near d (towards R d o) = true.
Proof.
  intros [I J] Io. apply near_iff. unfold towards, R, range, clampz in *. cbn [fst snd bx0 bx1 by0 by1] in *.
  assert (-1 <= fst o <= 1 /\ -1 <= snd o <= 1).
  { unfold compass in Io. cbn [In] in Io.
    repeat (destruct Io as [<-|Io]; [cbn [fst snd]; lia|]). contradiction. }
  lia.
Qed.
Lemma near_towards d e : in_box R d -> in_box R e -> near d e = true -> same d e = false ->
  exists o, In o compass /\ e = towards R d o.
Proof.
  intros I J N S. apply near_iff in N. exists (fst e - fst d, snd e - snd d). split.
  - assert (D : (fst e - fst d, snd e - snd d) <> (0, 0)).
    { intros C. assert (fst e - fst d = 0) by congruence. assert (snd e - snd d = 0) by congruence.
      unfold same in S. rewrite (proj2 (Z.eqb_eq (fst d) (fst e))), (proj2 (Z.eqb_eq (snd d) (snd e))) in S by lia.
      discriminate. }
    assert (A : fst e - fst d = -1 \/ fst e - fst d = 0 \/ fst e - fst d = 1) by lia.
    assert (C : snd e - snd d = -1 \/ snd e - snd d = 0 \/ snd e - snd d = 1) by lia.
    destruct A as [A|[A|A]], C as [C|[C|C]]; rewrite A, C in *; unfold compass; cbn [In]; try tauto; congruence.
  - destruct d as [dx dy], e as [ex ey]. unfold towards, in_box, clampz in *. cbn [fst snd] in *. f_equal; lia.
Qed.

Definition adj8 (bd : Z) (d : Z * Z) : list Z := map (fun o => prior_at bp L bd (towards R d o)) compass.
Definition adj_min (bd : Z) (d : Z * Z) : Z := minl (nth 0 (adj8 bd d) 0) (tl (adj8 bd d)).

Lemma low_eq q d : in_box R d -> let bd := 255 + p2 g in let m := prior_min bp L bd in
  Z.min (Z.min (prior_at bp L bd d) (adj_min bd d + p1 g)) (m + q) = step_low bp L bd q d.
Proof.
  intros Id bd m. set (A := adj_min bd d).
  assert (HA : (exists o, In o compass /\ A = prior_at bp L bd (towards R d o)) /\
               forall o, In o compass -> A <= prior_at bp L bd (towards R d o)).
  { unfold A, adj_min. destruct (minl_spec (nth 0 (adj8 bd d) 0) (tl (adj8 bd d))) as (X & Y & Z).
    split.
    - assert (In (minl (nth 0 (adj8 bd d) 0) (tl (adj8 bd d))) (adj8 bd d)) as I.
      { destruct X as [->|X]; [left; reflexivity|right; exact X]. }
      unfold adj8 in I at 3. apply in_map_iff in I as (o & E & Io). exists o. split; auto.
    - intros o Io. assert (I : In (prior_at bp L bd (towards R d o)) (adj8 bd d)) by (unfold adj8; apply in_map_iff; eauto).
      destruct I as [I|I]; [rewrite <- I; exact Y|apply Z; exact I]. }
  clearbody A. destruct HA as [(o & Io & Eo) HA]. unfold step_low. fold m.
  apply minl_unique.
  - assert (near d d = true) as ND by (apply near_iff; lia).
    assert (S0 : forall v, v = prior_at bp L bd d ->
       In v (map (fun e => prior_at bp L bd e + (if same d e then 0 else p1 g)) (filter (near d) (cells R)))).
    { intros v ->. apply in_map_iff. exists d. rewrite (proj2 (same_iff d d)) by auto. split; [lia|].
      apply filter_In. rewrite in_cells. auto. }
    destruct (Z.min_spec (Z.min (prior_at bp L bd d) (A + p1 g)) (m + q)) as [[_ ->]|[_ ->]]; [|left; auto].
    right. destruct (Z.min_spec (prior_at bp L bd d) (A + p1 g)) as [[_ ->]|[Le ->]]; [apply S0; auto|].
    destruct (same d (towards R d o)) eqn:Es.
    + apply S0. apply same_iff in Es. rewrite <- Es in Eo. lia.
    + apply in_map_iff. exists (towards R d o). rewrite Es. split; [lia|].
      apply filter_In. rewrite in_cells. split; [apply towards_in|apply towards_near; auto].
  - lia.
  - intros x Ix. apply in_map_iff in Ix as (e & <- & Ie). apply filter_In in Ie as [Ie Ne]. apply in_cells in Ie.
    destruct (same d e) eqn:Es.
    + apply same_iff in Es. subst e. lia.
    + destruct (near_towards d e) as (o' & Io' & ->); auto. specialize (HA o' Io'). lia.
Qed.

Lemma prior_at_bounds e : prior_min bp L (255 + p2 g) <= prior_at bp L (255 + p2 g) e <= top.
Proof.
  destruct (prior_min_spec) as (A & B & _). unfold prior_at. destruct (in_boxb bp e) eqn:Eb.
  - apply in_boxb_iff in Eb. specialize (B e Eb). specialize (HL e Eb). lia.
  - unfold top. lia.
Qed.
Lemma adj_min_bounds d : prior_min bp L (255 + p2 g) <= adj_min (255 + p2 g) d <= top.
Proof.
  unfold adj_min. destruct (minl_spec (nth 0 (adj8 (255 + p2 g) d) 0) (tl (adj8 (255 + p2 g) d))) as (X & _).
  assert (In (minl (nth 0 (adj8 (255 + p2 g) d) 0) (tl (adj8 (255 + p2 g) d))) (adj8 (255 + p2 g) d)) as I.
  { destruct X as [->|X]; [left; reflexivity|right; exact X]. }
  unfold adj8 in I at 3. apply in_map_iff in I as (o & <- & _). apply prior_at_bounds.
Qed.

Lemma neighbour_ok t full d k : table_ok t -> len full = nd g -> in_box R d -> 0 <= k < 8 ->
  (forall e, in_box R e -> at_ full (pos R e) = prior_at bp L (bad g) e) ->
  neighbour t full (pos R d) k = Ok (nth (Z.to_nat k) (adj8 (bad g) d) 0).
Proof.
  intros [Lt Ht] Lf Id Hk Hf. unfold neighbour.
  pose proof (pos_range _ _ Id) as PR. unfold R in PR. rewrite <- nd_size in PR. fold R in PR.
  rewrite rd_in by lia. cbn [bind]. rewrite Ht by auto.
  set (o := nth (Z.to_nat k) compass (0, 0)).
  pose proof (towards_in d o) as It. pose proof (pos_range _ _ It) as PT. unfold R in PT.
  rewrite <- nd_size in PT. fold R in PT. rewrite rd_in by lia. rewrite Hf by auto. f_equal.
  unfold adj8. rewrite (nth_indep _ 0 (prior_at bp L (bad g) (towards R d (0, 0)))).
  - rewrite map_nth with (f := fun o => prior_at bp L (bad g) (towards R d o)). reflexivity.
  - rewrite map_length. unfold compass. cbn [length]. lia.
Qed.
Lemma lowest_ok t full d : table_ok t -> len full = nd g -> in_box R d ->
  (forall e, in_box R e -> at_ full (pos R e) = prior_at bp L (bad g) e) ->
  lowest_adjacent t full (pos R d) = Ok (adj_min (bad g) d).
Proof.
  intros Ht Lf Id Hf. unfold lowest_adjacent.
  rewrite (neighbour_ok t full d 0) by (auto; lia). cbn [bind].
  unfold for_up. change (Z.to_nat (8 - 1)) with 7%nat. cbn [loop].
  repeat (rewrite (neighbour_ok t full d) by (auto; lia); cbn [bind]).
  f_equal. unfold adj_min. rewrite eight_min by (unfold adj8; now rewrite map_length).
  repeat match goal with |- context[Z.to_nat ?z] => let n := eval compute in (Z.to_nat z) in change (Z.to_nat z) with n end.
  reflexivity.
Qed.
Lemma neighbours_ok t full d : table_ok t -> len full = nd g -> in_box R d ->
  (forall e, in_box R e -> at_ full (pos R e) = prior_at bp L (bad g) e) ->
  neighbours t full (pos R d) 8 0 = Ok (adj8 (bad g) d).
Proof.
  intros Ht Lf Id Hf. cbn [neighbours].
  repeat (rewrite (neighbour_ok t full d) by (auto; lia); cbn [bind]).
  repeat match goal with |- context[Z.to_nat ?z] => let n := eval compute in (Z.to_nat z) in change (Z.to_nat z) with n end.
  reflexivity.
Qed.

(* the value written for disparity d *)
Definition step_val (c : Z * Z -> Z) (gr : Z) (d : Z * Z) : Z :=
  c d + step_low bp L (255 + p2 g) (jump_penalty (p1 g) (p2 g) gr) d - prior_min bp L (255 + p2 g).

Lemma step_low_bounds gr d : 0 <= gr -> let m := prior_min bp L (255 + p2 g) in
  m <= step_low bp L (255 + p2 g) (jump_penalty (p1 g) (p2 g) gr) d <= m + jump_penalty (p1 g) (p2 g) gr.
Proof.
  intros Hg m. pose proof (jump_bounds gr ltac:(lia) ltac:(lia) Hg) as J.
  unfold step_low. fold m.
  match goal with |- context[minl ?v ?l] => destruct (minl_spec v l) as (X & Y & Z) end.
  split; [|auto]. destruct X as [X|X]; [lia|]. apply in_map_iff in X as (e & <- & _).
  pose proof (prior_at_bounds e). unfold m. destruct (same d e); lia.
Qed.
Lemma step_val_bounds c gr d : 0 <= gr -> 0 <= c d <= 255 -> 0 <= step_val c gr d <= top.
Proof.
  intros Hg Hc. unfold step_val. pose proof (step_low_bounds gr d Hg) as B. cbv zeta in B.
  pose proof (jump_bounds gr ltac:(lia) ltac:(lia) Hg). unfold top. lia.
Qed.

Section M.
Variables (b : box) (t buf full cost : list Z) (po oo lo gr : Z) (c : Z * Z -> Z).
Hypothesis Bb : box_ok R b.
Hypothesis Ht : table_ok t.
Hypothesis Hpo : 0 <= po.
Hypothesis Hpo' : po + box_size bp <= oo.
Hypothesis Hoo : oo + box_size b <= len buf.
Hypothesis HB : forall e, in_box bp e -> at_ buf (po + pos bp e) = L e.
Hypothesis Lfull : len full = nd g.
Hypothesis Hfull : forall i, 0 <= i < nd g -> at_ full i = bad g.
Hypothesis Hlo : 0 <= lo.
Hypothesis Hlo' : lo + box_size b <= len cost.
Hypothesis HC : forall d, in_box b d -> at_ cost (lo + pos b d) = c d.
Hypothesis HC' : forall d, in_box b d -> 0 <= c d <= 255.
Hypothesis Hgr : 0 <= gr.

Lemma sizes : 0 <= box_size b /\ 0 <= box_size bp.
Proof. destruct Bb as (? & ? & _), Bp as (? & ? & _). unfold box_size. nia. Qed.

Definition written (k : Z) (buf' : list Z) : Prop :=
  len buf' = len buf /\
  (forall d, in_box b d -> pos b d < k -> at_ buf' (oo + pos b d) = step_val c gr d) /\
  (forall i, 0 <= i -> ~ (oo <= i < oo + k) -> at_ buf' i = at_ buf i).

Lemma written0 : written 0 buf.
Proof. unfold written. split; auto. split; auto. intros d I. pose proof (pos_range _ _ I). lia. Qed.
Lemma written_S d buf' v : in_box b d -> v = step_val c gr d -> written (pos b d) buf' ->
  written (pos b d + 1) (upd buf' (Z.to_nat (oo + pos b d)) v).
Proof.
  pose proof sizes as [Z1 Z2].
  intros I -> (A & B & C). pose proof (pos_range _ _ I) as PI. split; [rewrite len_upd; auto|]. split.
  - intros e Ie He. pose proof (pos_range _ _ Ie). rewrite at_upd by lia.
    destruct (Z.eqb_spec (oo + pos b e) (oo + pos b d)) as [E|N].
    + assert (E' : pos b e = pos b d) by lia. apply pos_inj in E'; auto. now subst e.
    + apply B; auto. lia.
  - intros i Hi Hn. rewrite at_upd by lia. destruct (Z.eqb_spec i (oo + pos b d)); [lia|]. apply C; auto. lia.
Qed.

Lemma evaluate_path_ok : exists buf' full',
  evaluate_path g t b bp buf po full cost lo oo gr = Ok (buf', full') /\
  written (box_size b) buf' /\ len full' = nd g /\ (forall i, 0 <= i < nd g -> at_ full' i = bad g).
Proof.
  pose proof sizes as [Z1 Z2]. unfold evaluate_path.
  destruct (load_prior_ok buf po full) as (f & E & Lf & Hf); auto; [lia|].
  rewrite E. cbn [bind]. rewrite p2_mod_eq by lia.
  pose proof (jump_bounds gr ltac:(lia) ltac:(lia) Hgr) as J.
  rewrite bad_eq in *.
  pose proof prior_min_spec as (M1 & M2 & _).
  rewrite u16_id by lia.
  match goal with |- context[box_loop g b ?body ?s0] =>
   destruct (box_loop_inv g (fun k (s : Z * list Z) => fst s = k /\ written k (snd s)) b body s0)
     as ([pd bf] & E2 & Q1 & Q2) end; try (destruct Bb as (? & ? & _); auto; fail).
  - cbn [fst snd]. split; auto. apply written0.
  - intros dx dy [pd bf] I [A W]. cbn [fst snd] in A, W. subst pd.
    assert (IR : in_box R (dx, dy)) by (apply Bb; auto).
    pose proof (pos_range _ _ IR) as PR. unfold R in PR. rewrite <- nd_size in PR. rewrite xy_pos. fold R in PR |- *.
    pose proof (pos_range _ _ I) as PI. destruct (W) as (WL & _).
    rewrite rd_in by lia. cbn [bind].
    rewrite lowest_ok by (rewrite ?bad_eq; auto). cbn [bind].
    rewrite rd_in by lia. cbn [bind]. rewrite wr_in by lia. cbn [bind].
    eexists. split; [reflexivity|]. cbn [fst snd]. split; auto.
    apply written_S; auto. rewrite HC, Hf by auto. rewrite bad_eq.
    pose proof (prior_at_bounds (dx, dy)) as PB. pose proof (adj_min_bounds (dx, dy)) as AB.
    specialize (HC' _ I). unfold top in *.
    rewrite (u16_id (adj_min (255 + p2 g) (dx, dy) + p1 g)) by lia.
    rewrite u16_id by lia.
    unfold step_val. rewrite <- low_eq by auto. reflexivity.
  - rewrite E2. cbn [bind]. destruct (reset_prior_ok f) as (f' & E3 & Lf' & Hf'); auto.
    { rewrite bad_eq. auto. }
    rewrite E3. cbn [bind snd]. exists bf, f'. cbn [fst snd] in Q2. rewrite <- bad_eq. auto.
Qed.

Lemma lane_ok d : in_box b d ->
  lane_result g (prior_min bp L (255 + p2 g) + jump_penalty (p1 g) (p2 g) gr) (prior_min bp L (255 + p2 g))
    (Lane (c d) (prior_at bp L (255 + p2 g) d) (adj8 (255 + p2 g) d)) = step_val c gr d.
Proof.
  intros I. unfold lane_result. cbn [l_loc l_same l_adj].
  assert (IR : in_box R d) by (apply Bb; auto).
  unfold step_val. rewrite <- low_eq by auto.
  pose proof (prior_at_bounds d) as PB. pose proof (adj_min_bounds d) as AB.
  pose proof (jump_bounds gr ltac:(lia) ltac:(lia) Hgr) as J.
  pose proof prior_min_spec as (M1 & M2 & _).
  specialize (HC' _ I). unfold adj_min in *. set (a := adj8 (255 + p2 g) d) in *.
  assert (E : length a = 8%nat) by (unfold a, adj8; now rewrite map_length).
  apply eight_min' in E. rewrite <- E.
  set (m := prior_min bp L (255 + p2 g)) in *. set (pr := prior_at bp L (255 + p2 g) d) in *.
  set (q := jump_penalty (p1 g) (p2 g) gr) in *. set (x := minl (nth 0 a 0) (tl a)) in *. clear E. clearbody x m pr q.
  clear a. unfold adds16, subs16, top in *. lia.
Qed.

(* the lanes waiting when the disparity at position k comes next: positions oi .. k-1 *)
Definition lane_of (d : Z * Z) : lane := Lane (c d) (prior_at bp L (255 + p2 g) d) (adj8 (255 + p2 g) d).
Definition pending (oi k : Z) (ls : list lane) : Prop :=
  Z.of_nat (length ls) = k - oi /\
  forall d j, in_box b d -> pos b d = oi + Z.of_nat j -> (j < length ls)%nat -> nth_error ls j = Some (lane_of d).

Lemma flush_ok ls : forall oi k buf', 0 <= oi -> pending oi k ls -> k <= box_size b -> written oi buf' ->
  exists buf'', flush g (prior_min bp L (255 + p2 g) + jump_penalty (p1 g) (p2 g) gr) (prior_min bp L (255 + p2 g))
      oo oi ls buf' = Ok (k, buf'') /\ written k buf''.
Proof.
  induction ls as [|l ls IH]; intros oi k buf' Ho [Pl Pn] Hk W; cbn [flush].
  - cbn [length] in Pl. exists buf'. replace k with oi by lia. auto.
  - cbn [length] in Pl. pose proof sizes as [Z1 Z2].
    destruct (pos_surj b oi) as (d & Id & Ed); try (destruct Bb as (? & ? & _); auto; lia).
    assert (Hl : l = lane_of d).
    { specialize (Pn d 0%nat Id ltac:(lia) ltac:(cbn [length]; lia)). cbn [nth_error] in Pn. congruence. }
    pose proof (pos_range _ _ Id). destruct (W) as (WL & _).
    rewrite wr_in by lia. cbn [bind].
    apply IH; auto; [lia| |].
    + split; [lia|]. intros e j Ie Ej Lj. specialize (Pn e (S j) Ie ltac:(lia) ltac:(cbn [length]; lia)).
      cbn [nth_error] in Pn. auto.
    + rewrite <- Ed in W |- *. apply written_S; auto. rewrite Hl. apply lane_ok; auto.
Qed.

Lemma evaluate_path_sse_ok : exists buf' full',
  evaluate_path_sse g t b bp buf po full cost lo oo gr = Ok (buf', full') /\
  written (box_size b) buf' /\ len full' = nd g /\ (forall i, 0 <= i < nd g -> at_ full' i = bad g).
Proof.
  pose proof sizes as [Z1 Z2]. unfold evaluate_path_sse.
  destruct (load_prior_ok buf po full) as (f & E & Lf & Hf); auto; [lia|].
  rewrite E. cbn [bind]. rewrite p2_mod_eq by lia.
  pose proof (jump_bounds gr ltac:(lia) ltac:(lia) Hgr) as J.
  rewrite bad_eq in *.
  pose proof prior_min_spec as (M1 & M2 & _).
  rewrite u16_id by lia.
  match goal with |- context[box_loop g b ?body ?s0] =>
   destruct (box_loop_inv g (fun k (s : Z * Z * list lane * list Z) =>
     let '(pd, oi, ls, bf) := s in pd = k /\ 0 <= oi /\ pending oi k ls /\ written oi bf) b body s0)
     as ([[[pd oi] ls] bf] & E2 & Q1 & Q2 & Q3 & Q4) end; try (destruct Bb as (? & ? & _); auto; fail).
  - split; auto. split; [lia|]. split; [|apply written0]. split; [reflexivity|].
    intros d j _ _ Lj. cbn [length] in Lj. lia.
  - intros dx dy [[[pd oi] ls] bf] I (-> & A1 & A2 & W).
    assert (IR : in_box R (dx, dy)) by (apply Bb; auto).
    pose proof (pos_range _ _ IR) as PR. unfold R in PR. rewrite <- nd_size in PR. rewrite xy_pos. fold R in PR |- *.
    pose proof (pos_range _ _ I) as PI.
    rewrite rd_in by lia. cbn [bind]. rewrite rd_in by lia. cbn [bind].
    rewrite neighbours_ok by (rewrite ?bad_eq; auto). cbn [bind].
    rewrite HC, Hf by auto. rewrite bad_eq. fold (lane_of (dx, dy)).
    assert (PD : pending oi (pos b (dx, dy) + 1) (ls ++ [lane_of (dx, dy)])).
    { destruct A2 as [A2 A3]. split; [rewrite app_length; cbn [length]; lia|].
      intros e j Ie Ej Lj. rewrite app_length in Lj. cbn [length] in Lj.
      destruct (Nat.eq_dec j (length ls)) as [->|Nj].
      - assert (Ee : pos b e = pos b (dx, dy)) by lia. apply pos_inj in Ee; auto. subst e. apply nth_error_snoc.
      - rewrite nth_error_app1 by lia. apply A3; auto. lia. }
    match goal with |- context[if ?x then _ else _] => destruct x end.
    + destruct (flush_ok _ _ _ bf A1 PD) as (bf' & Ef & W'); [lia|auto|].
      rewrite Ef. cbn [bind fst snd]. eexists. split; [reflexivity|]. cbv beta iota. split; auto. split; [lia|].
      split; auto. split; [cbn [length]; lia|]. intros e j _ _ Lj. cbn [length] in Lj. lia.
    + eexists. split; [reflexivity|]. cbv beta iota. auto.
  - rewrite E2. cbn [bind]. destruct (flush_ok ls oi (box_size b) bf) as (bf' & Ef & W'); auto; [lia|].
    rewrite Ef. cbn [bind snd]. destruct (reset_prior_ok f) as (f' & E3 & Lf' & Hf'); auto.
    { rewrite bad_eq. auto. }
    rewrite E3. cbn [bind]. exists bf', f'. rewrite <- bad_eq. auto.
Qed.
End M.
End C.
End P.
End E.
