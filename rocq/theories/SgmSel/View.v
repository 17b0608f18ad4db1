(* The choice of a disparity for every pixel, and the whole matcher. *)
From Coq Require Import ZArith List Bool Lia.
From Verif Require Import Lib.Base Lib.Lists ImgMem.Model ImgMem.Spec Lib.Img Sgm.Model Sgm.Spec Sgm.Mem Sgm.Proofs Sgm.Pass Sgm.Accum Sgm.Props
  SgmBox.Spec SgmBox.Model SgmBox.Props SgmSel.Model SgmSel.Spec SgmSel.Vec SgmSel.Cost.
Import ListNotations.
Local Open Scope Z_scope.

Lemma shift_zrange a n : zrange a (a + n) = map (fun x => a + x) (zrange 0 n).
Proof.
  unfold zrange. replace (a + n - a) with (n - 0) by lia. generalize (Z.to_nat (n - 0)). intros m.
  replace a with (a + 0) at 1 by lia. generalize 0. induction m as [|m IHm]; intros z; cbn [zseq map]; auto.
  f_equal. rewrite <- IHm. f_equal. lia.
Qed.
Lemma raster_map {A} (f : Z -> Z -> A) w h : 0 < w -> 0 <= h ->
  flat_map (fun y => map (fun x => f x y) (zrange 0 w)) (zrange 0 h) = map (fun i => f (i mod w) (i / w)) (zrange 0 (h * w)).
Proof.
  intros W H. pattern h. apply natlike_ind; auto.
  intros k Hk IH. unfold Z.succ. rewrite zrange_snoc by lia. rewrite flat_map_app, IH. cbn [flat_map]. rewrite app_nil_r.
  replace ((k + 1) * w) with (k * w + w) by lia. rewrite (zrange_app 0 (k * w) (k * w + w)) by nia. rewrite map_app. f_equal.
  rewrite shift_zrange, map_map. apply map_ext_in. intros x Ix. apply in_zrange in Ix.
  rewrite Z.add_comm, Z.mod_add, Z.div_add, Z.mod_small, Z.div_small by lia. reflexivity.
Qed.
Lemma nth_zmap {A} (f : Z -> A) n i d : 0 <= i < n -> nth (Z.to_nat i) (map f (zrange 0 n)) d = f i.
Proof.
  intros H. rewrite (nth_indep _ d (f 0)) by (rewrite map_length, zrange_length; lia). rewrite map_nth. unfold zrange. rewrite zseq_nth by lia. f_equal. lia.
Qed.
Lemma cells_map b : filled b -> cells b = map (fun i => (bx0 b + i mod (bx1 b - bx0 b + 1), by0 b + i / (bx1 b - bx0 b + 1))) (zrange 0 (box_size b)).
Proof.
  intros [X Y]. unfold cells. set (w := bx1 b - bx0 b + 1). set (h := by1 b - by0 b + 1).
  replace (bx1 b + 1) with (bx0 b + w) by (unfold w; lia). replace (by1 b + 1) with (by0 b + h) by (unfold h; lia).
  rewrite !shift_zrange. replace (box_size b) with (h * w) by (unfold box_size, w, h; lia).
  rewrite <- (raster_map (fun x y => (bx0 b + x, by0 b + y))) by (unfold w, h; lia).
  rewrite flat_map_concat_map, map_map, <- flat_map_concat_map. apply flat_map_ext. intros y. rewrite map_map. reflexivity.
Qed.
Lemma box_vec_len b f : filled b -> Z.of_nat (length (box_vec b f)) = box_size b.
Proof. intros F. unfold box_vec. rewrite map_length, cells_map, map_length, zrange_length by auto. destruct F. unfold box_size. nia. Qed.
Lemma box_vec_item b f d : filled b -> in_box b d -> item (box_vec b f) (pos b d) = f d.
Proof.
  intros F I. unfold item, box_vec. rewrite cells_map by auto. rewrite map_map. rewrite nth_zmap by (now apply pos_range).
  f_equal. destruct d as [dx dy]. unfold pos, in_box in *. cbn [fst snd] in *.
  rewrite (Z.add_comm (_ * _)), Z.mod_add, Z.div_add, Z.mod_small, Z.div_small by lia. f_equal; lia.
Qed.

Lemma nth_skip (l : list Z) d : forall k n, nth n (skipn k l) d = nth (k + n) l d.
Proof.
  intros k. revert l. induction k as [|k IH]; intros l n; [reflexivity|]. destruct l as [|a l]; [cbn [skipn]; now rewrite !nth_overflow by (cbn; lia)|].
  cbn [skipn plus nth]. apply IH.
Qed.
Lemma slice_ok l s n : 0 <= s -> 0 <= n -> s + n <= len l ->
  exists v, slice l s n = Ok v /\ len v = n /\ forall i, 0 <= i < n -> at_ v i = at_ l (s + i).
Proof.
  intros S N L. unfold slice, len in *. rewrite (proj2 (Z.leb_le 0 s)), (proj2 (Z.leb_le 0 n)), (proj2 (Z.leb_le (s + n) _)) by lia. cbn [andb].
  eexists. split; [reflexivity|]. split.
  - rewrite firstn_length, skipn_length. lia.
  - intros i Hi. unfold at_. rewrite <- (firstn_skipn (Z.to_nat s) l) at 2.
    rewrite app_nth2 by (rewrite firstn_length; lia). rewrite firstn_length.
    replace (Z.to_nat (s + i) - Nat.min (Z.to_nat s) (length l))%nat with (Z.to_nat i) by lia.
    rewrite <- (firstn_skipn (Z.to_nat n) (skipn (Z.to_nat s) l)) at 2. rewrite app_nth1; auto. rewrite firstn_length, skipn_length. lia.
Qed.
Lemma splice_ok l s v : 0 <= s -> s + len v <= len l ->
  len (splice l s v) = len l /\ (forall i, 0 <= i < len v -> at_ (splice l s v) (s + i) = at_ v i) /\
  forall i, 0 <= i -> i < s \/ s + len v <= i -> at_ (splice l s v) i = at_ l i.
Proof.
  intros S L. unfold splice, len, at_ in *. split; [|split].
  - rewrite !app_length, firstn_length, skipn_length. lia.
  - intros i Hi. rewrite app_nth2 by (rewrite firstn_length; lia). rewrite firstn_length.
    replace (Z.to_nat (s + i) - Nat.min (Z.to_nat s) (length l))%nat with (Z.to_nat i) by lia. apply app_nth1. lia.
  - intros i Hi [X|X].
    + rewrite app_nth1 by (rewrite firstn_length; lia). rewrite <- (firstn_skipn (Z.to_nat s) l) at 2. rewrite app_nth1; auto. rewrite firstn_length. lia.
    + rewrite app_nth2 by (rewrite firstn_length; lia). rewrite firstn_length. rewrite app_nth2 by lia.
      rewrite nth_skip. f_equal. lia.
Qed.

Section S.
Variable avg : list Z -> Z.
Hypothesis AV : mean_ok avg.

Lemma minima_pos v i : first_min v i -> 1 <= minima v.
Proof.
  intros [Hi F]. unfold minima. assert (I : In (item v i) (filter (fun z => forallb (fun y => z <=? y) v) v)).
  { apply filter_In. split; [unfold item; apply nth_In; lia|]. apply forallb_forall. intros y Iy. apply Z.leb_le.
    apply (In_nth _ _ 0) in Iy. destruct Iy as (k & Hk & <-). specialize (F (Z.of_nat k) ltac:(lia)). unfold item at 2 in F. rewrite Nat2Z.id in F. lia. }
  destruct (filter _ v); [destruct I|cbn [length]; lia].
Qed.

Section G.
Variable g : sgm.
Hypothesis G : sgm_ok g.
Variables (starts : img Z) (main : Z).
Hypothesis LY : layout g starts main.

Lemma view_ok acc : len acc = main ->
  (forall p d, inimg g p -> in_box (pbox g p) d -> 0 <= at_ acc (pstart starts p + pos (pbox g p) d) <= 65535) ->
  exists out acc', create_view avg g starts acc = Ok (out, acc') /\ icols out = ocols g /\ irows out = orows g /\ len acc' = main /\
    forall p, inimg g p -> exists v', chosen avg (pbox g p) (fun d => at_ acc (pstart starts p + pos (pbox g p) d)) (pix out (fst p) (snd p)) v' /\
      forall d, in_box (pbox g p) d -> at_ acc' (pstart starts p + pos (pbox g p) d) = at_ v' (pos (pbox g p) d).
Proof.
  intros LA UA. destruct (dims g G) as (W1 & W2 & W3 & W4). pose proof LY as (S1 & S2 & S3 & S4).
  unfold create_view.
  pose (Q := fun (n : Z) (s : img (option (Z * Z)) * list Z) =>
    icols (fst s) = ocols g /\ irows (fst s) = orows g /\ len (snd s) = main /\
    (forall p, inimg g p -> n <= rank g p -> forall d, in_box (pbox g p) d -> at_ (snd s) (pstart starts p + pos (pbox g p) d) = at_ acc (pstart starts p + pos (pbox g p) d)) /\
    (forall p, inimg g p -> rank g p < n -> exists v', chosen avg (pbox g p) (fun d => at_ acc (pstart starts p + pos (pbox g p) d)) (pix (fst s) (fst p) (snd p)) v' /\
      forall d, in_box (pbox g p) d -> at_ (snd s) (pstart starts p + pos (pbox g p) d) = at_ v' (pos (pbox g p) d))).
  match goal with |- context[for_up 0 (orows g) _ ?s0] => destruct (raster_loop Q
    (fun j i s => let '(disp, acc) := s in
      b <- get (bnd g) i j ;;
      if box_size b =? 0 then disp <- put disp i j None ;; Ok (disp, acc)
      else
        st <- get starts i j ;;
        vec <- slice acc st (box_size b) ;;
        x <- select_best avg (bx1 b - bx0 b + 1) (by1 b - by0 b + 1) vec ;;
        let '(mi, _, vec) := x in
        d <- disp_index_to_xy mi b ;;
        disp <- put disp i j (Some d) ;;
        Ok (disp, splice acc st vec)) (ocols g) (orows g) s0) as ([out acc'] & E & Q1 & Q2 & Q3 & Q4 & Q5) end; [lia|lia| | |].
  - unfold Q. cbn [fst snd icols irows]. split; auto. split; auto. split; auto. split; auto. intros p Ip C. unfold inimg, rank in *. nia.
  - intros r c [disp ac] Hr Hc (D1 & D2 & D3 & D4 & D5). cbn [fst snd] in D1, D2, D3, D4, D5.
    rewrite get_in by (split; lia). cbn [bind].
    assert (Ip : inimg g (c, r)) by (split; cbn [fst snd]; lia).
    assert (RK : rank g (c, r) = r * ocols g + c) by reflexivity.
    pose proof (pbox_ok g G (c, r) Ip) as (BX & BY & _). unfold pbox in BX, BY. cbn [fst snd] in BX, BY.
    assert (FB : box_size (pix (bnd g) c r) = 0 <-> ~ filled (pix (bnd g) c r)).
    { unfold filled, box_size. split; intros X; [intros [? ?]; nia|]. set (b := pix (bnd g) c r) in *.
      destruct (Z.eq_dec (bx1 b - bx0 b + 1) 0) as [->|]; [lia|]. destruct (Z.eq_dec (by1 b - by0 b + 1) 0) as [->|]; [lia|]. exfalso. apply X. lia. }
    assert (Put : forall o, exists m', put disp c r o = Ok m' /\ icols m' = ocols g /\ irows m' = orows g /\ pix m' c r = o /\
       forall p, inimg g p -> rank g p <> r * ocols g + c -> pix m' (fst p) (snd p) = pix disp (fst p) (snd p)).
    { intros o. destruct (put_in disp c r o) as (m' & Em & C1 & C2 & C3 & C4); [split; lia|]. exists m'. split; auto. split; [lia|]. split; [lia|]. split; auto.
      intros p _ Np. apply C4. destruct p as [a b]. cbn [fst snd]. destruct (Z.eq_dec a c) as [->|]; [right|left]; auto. intros ->. apply Np. reflexivity. }
    destruct (Z.eqb_spec (box_size (pix (bnd g) c r)) 0) as [Z0|Z0].
    + destruct (Put None) as (m' & Em & C1 & C2 & C3 & C4). rewrite Em. cbn [bind]. eexists. split; [reflexivity|].
      unfold Q. cbn [fst snd]. split; auto. split; auto. split; auto. split.
      * intros p Ip' Hp d Id. apply D4; auto. lia.
      * intros p Ip' Hp. destruct (rank_case g p c r Ip' Hc Hr Hp) as [->|H'].
        -- exists []. cbn [fst snd]. rewrite C3. split; [apply FB; exact Z0|]. intros d Id. exfalso. apply (proj1 FB Z0).
           unfold in_box, pbox in Id. cbn [fst snd] in Id. unfold filled. lia.
        -- rewrite C4 by (auto; lia). apply D5; auto.
    + assert (FL : filled (pix (bnd g) c r)).
      { assert (~ ~ filled (pix (bnd g) c r)) by (intros X; apply Z0, FB, X). unfold filled in *. lia. }
      rewrite get_in by (split; lia). cbn [bind]. destruct (S3 (c, r) Ip) as [P1 P2]. unfold pstart, psize, pbox in P1, P2. cbn [fst snd] in P1, P2.
      pose proof (psize_nonneg g G (c, r) Ip) as SN. unfold psize, pbox in SN. cbn [fst snd] in SN.
      set (b := pix (bnd g) c r) in *. set (st := pix starts c r) in *.
      destruct (slice_ok ac st (box_size b)) as (v & Ev & Lv & Av); auto; [lia|]. rewrite Ev. cbn [bind].
      set (f := fun d => at_ acc (st + pos b d)).
      assert (V : v = box_vec b f).
      { apply at_ext; [unfold len at 2; rewrite box_vec_len by auto; auto|]. intros i Hi.
        destruct (pos_surj b i) as (d & Id & <-); [lia|lia|lia|]. rewrite Av by lia. change (at_ (box_vec b f) (pos b d)) with (item (box_vec b f) (pos b d)).
        rewrite box_vec_item by auto. unfold f. apply (D4 (c, r)); auto. lia. }
      assert (UV : u16s v).
      { rewrite V. apply Forall_forall. intros z Iz. apply in_map_iff in Iz. destruct Iz as (d & <- & Id). apply in_cells in Id. apply (UA (c, r)); auto. }
      set (w := bx1 b - bx0 b + 1) in *. set (h := by1 b - by0 b + 1) in *.
      assert (SZ : box_size b = h * w) by (unfold box_size, w, h; lia).
      assert (HW : 0 < w /\ 0 < h) by (unfold w, h, filled in *; lia). destruct HW as [HW HH].
      destruct (select_ok avg AV w h HW HH v UV) as (k & mi & n & Es & Kk & Fm & En & Mn & Lt); [unfold len in Lv; lia|].
      rewrite Es. cbn [bind]. destruct (blurred_ok avg AV w h HW HH v k UV) as [BU BL]; [unfold len in Lv; lia|].
      destruct (disparity_of_entry b) with (i := mi) as (d & Ed & Id & Ep & _); [unfold filled in FL; lia|unfold filled in FL; lia|destruct Fm as [Fm _]; fold w h; nia|].
      rewrite Ed. cbn [bind]. destruct (Put (Some d)) as (m' & Em & C1 & C2 & C3 & C4). rewrite Em. cbn [bind]. eexists. split; [reflexivity|].
      destruct (splice_ok ac st (blurred avg w h k v)) as (Y1 & Y2 & Y3); [auto|unfold len in *; lia|]. unfold len in Y2, Y3 at 1. rewrite BL in Y2, Y3.
      unfold Q. cbn [fst snd]. split; auto. split; auto. split; [lia|]. split.
      * intros p Ip' Hp e Ie. pose proof (pos_range _ _ Ie). pose proof (S4 (c, r) p Ip Ip' ltac:(lia)) as SS.
        unfold pstart at 1, psize, pbox at 1 in SS. cbn [fst snd] in SS. fold b st in SS.
        rewrite Y3; [apply D4; auto; lia| |right; lia]. destruct (S3 p Ip'). lia.
      * intros p Ip' Hp. destruct (rank_case g p c r Ip' Hc Hr Hp) as [->|H'].
        -- exists (blurred avg w h k v). cbn [fst snd]. rewrite C3. split.
           ++ cbn [chosen]. change (pbox g (c, r)) with b. change (pstart starts (c, r)) with st. split; auto. split; auto. exists k. split; auto.
              cbv zeta. fold w h. rewrite V. rewrite V in Fm, Mn, En. split; auto. split; [rewrite Ep; auto|]. split; auto.
              intros K6. pose proof (minima_pos _ _ Fm). specialize (Lt K6). lia.
           ++ intros e Ie. change (pbox g (c, r)) with b in *. change (pstart starts (c, r)) with st.
              pose proof (pos_range _ _ Ie). apply Y2. lia.
        -- destruct (D5 p Ip' H') as (v' & Ch & Ev'). exists v'. rewrite C4 by (auto; lia). split; auto.
           intros e Ie. rewrite <- Ev' by auto. pose proof (pos_range _ _ Ie). pose proof (S4 p (c, r) Ip' Ip ltac:(lia)) as SS.
           unfold pstart at 2 in SS. cbn [fst snd] in SS. fold st in SS. unfold psize in SS. destruct (S3 p Ip') as [SP _].
           apply Y3; [lia|left; lia].
  - match type of E with ?l = _ => match goal with |- context[for_up 0 (orows g) ?f ?s0] => change (for_up 0 (orows g) f s0) with l end end.
    rewrite E. exists out, acc'. cbn [fst snd] in *. split; auto. split; auto. split; auto. split; auto. intros p Ip. apply Q5; auto.
    unfold inimg, rank in *. nia.
Qed.
End G.

(* consequences of [chosen] *)
Lemma unique_minima v i : 0 <= i < Z.of_nat (length v) -> (forall j, 0 <= j < Z.of_nat (length v) -> j <> i -> item v i < item v j) -> minima v = 1.
Proof.
  intros Hi U. unfold minima.
  assert (X : forall z, In z v -> forallb (fun y => z <=? y) v = (z =? item v i)).
  { intros z Iz. apply (In_nth _ _ 0) in Iz. destruct Iz as (k & Hk & Ez).
    assert (Ik : item v (Z.of_nat k) = z) by (unfold item; now rewrite Nat2Z.id).
    destruct (Z.eqb_spec z (item v i)) as [->|N].
    - apply forallb_forall. intros y Iy. apply Z.leb_le. apply (In_nth _ _ 0) in Iy. destruct Iy as (m & Hm & Ey).
      assert (Im : item v (Z.of_nat m) = y) by (unfold item; now rewrite Nat2Z.id).
      destruct (Z.eq_dec (Z.of_nat m) i) as [Q|Q]; [rewrite <- Im, Q; lia|]. specialize (U (Z.of_nat m) ltac:(lia) Q). lia.
    - apply not_true_iff_false. intros F. rewrite forallb_forall in F. specialize (F (item v i)). rewrite Z.leb_le in F.
      assert (In (item v i) v) by (unfold item; apply nth_In; lia). specialize (F ltac:(auto)).
      destruct (Z.eq_dec (Z.of_nat k) i) as [Q|Q]; [rewrite Q in Ik; congruence|]. specialize (U (Z.of_nat k) ltac:(lia) Q). lia. }
  rewrite (filter_ext_in _ _ _ X). clear X.
  set (m := item v i) in *. assert (Hm : nth (Z.to_nat i) v 0 = m) by reflexivity. clearbody m.
  assert (Hn : (Z.to_nat i < length v)%nat) by lia.
  assert (U' : forall j, (j < length v)%nat -> j <> Z.to_nat i -> nth j v 0 <> m).
  { intros j Hj Nj. specialize (U (Z.of_nat j) ltac:(lia) ltac:(lia)). unfold item in U. rewrite Nat2Z.id in U. lia. }
  clear U Hi. revert Hm Hn U'. generalize (Z.to_nat i). clear i. intros n. revert n.
  assert (None : forall l : list Z, (forall j, (j < length l)%nat -> nth j l 0 <> m) -> filter (fun z => z =? m) l = []).
  { induction l as [|a l IH]; intros U; [reflexivity|]. cbn [filter]. rewrite (proj2 (Z.eqb_neq a m)) by (apply (U 0%nat); cbn; lia).
    apply IH. intros j Hj. apply (U (S j)). cbn; lia. }
  induction v as [|a v IH]; intros n Hm Hn U; [cbn in Hn; lia|]. cbn [filter]. destruct n as [|n].
  - cbn [nth] in Hm. subst a. rewrite Z.eqb_refl. rewrite None; [reflexivity|]. intros j Hj. apply (U (S j)); cbn; lia.
  - rewrite (proj2 (Z.eqb_neq a m)) by (apply (U 0%nat); cbn; lia). cbn [nth length] in Hm, Hn. apply (IH n); auto; [lia|].
    intros j Hj Nj. apply (U (S j)); cbn; lia.
Qed.
Lemma chosen_unique b f o v' d : chosen avg b f o v' -> in_box b d -> (forall e, in_box b e -> e <> d -> f d < f e) -> o = Some d.
Proof.
  intros C I U. assert (F : filled b) by (unfold filled, in_box in *; lia).
  destruct o as [d'|]; [|now elim C]. destruct C as (_ & I' & t & Ht & Ev & Fm & Mn & _). cbv zeta in *.
  assert (UU : forall j, 0 <= j < box_size b -> j <> pos b d -> item (box_vec b f) (pos b d) < item (box_vec b f) j).
  { intros j Hj Nj. destruct F as [FX FY]. destruct (pos_surj b j) as (e & Ie & <-); [lia|lia|auto|]. rewrite !box_vec_item by (auto; split; auto). apply U; auto. congruence. }
  assert (M1 : minima (box_vec b f) = 1).
  { apply (unique_minima _ (pos b d)); rewrite box_vec_len by auto; [now apply pos_range|auto]. }
  assert (t = 0%nat) as ->. { destruct t; auto. specialize (Mn 0%nat ltac:(lia)). cbn [blurred] in Mn. lia. }
  cbn [blurred] in Ev. subst v'. destruct Fm as [_ Fm]. specialize (Fm (pos b d)). rewrite box_vec_len in Fm by auto.
  specialize (Fm (pos_range _ _ I)). f_equal. apply (pos_inj b); auto.
  destruct (Z.eq_dec (pos b d') (pos b d)) as [|N]; auto. specialize (UU (pos b d') (pos_range _ _ I') N). lia.
Qed.
End S.

(* bounds of the accumulated costs *)
Lemma jump_bounds q1 q2 gr : 0 <= q1 -> 0 <= q2 -> q1 <= jump_penalty q1 q2 gr <= Z.max q1 q2.
Proof.
  intros A B. unfold jump_penalty. destruct (Z.ltb_spec 0 gr); [|lia]. assert (q2 / gr <= q2) by (apply Z.div_le_upper_bound; nia). lia.
Qed.
Lemma path_cost_range R q1 q2 past d : 0 <= q1 -> 0 <= q2 ->
  match past with s :: _ => 0 <= s_cost s d <= 255 | [] => True end ->
  0 <= path_cost R q1 q2 past d <= 255 + Z.max q1 q2.
Proof.
  intros A B C. destruct past as [|s [|q rest]]; [cbn [path_cost]; lia|cbn [path_cost]; lia|].
  change (path_cost R q1 q2 (s :: q :: rest) d) with (step_cost R q1 q2 (s_box q) (path_cost R q1 q2 (q :: rest)) (s_cost s) (grad s q) d).
  unfold step_cost. set (L := path_cost R q1 q2 (q :: rest)). set (m := prior_least (s_box q) L q2).
  pose proof (jump_bounds q1 q2 (grad s q) A B) as J. set (j := jump_penalty q1 q2 (grad s q)) in *.
  match goal with |- context[minl ?v ?l] => destruct (minl_spec v l) as (M1 & M2 & M3); set (mm := minl v l) in * end.
  cbn beta iota in C. assert (m <= mm); [|clearbody m mm j; lia]. destruct M1 as [->|I]; [lia|]. apply in_map_iff in I. destruct I as (e & <- & _).
  destruct (minl_spec (255 + q2) (map L (cells (s_box q)))) as (_ & N2 & N3). fold (prior_least (s_box q) L q2) in N2, N3. fold m in N2, N3.
  unfold prior_costs. destruct (in_boxb (s_box q) e) eqn:Eb.
  - assert (m <= L e) by (apply N3, in_map, in_cells, in_boxb_iff, Eb). destruct (same d e); lia.
  - destruct (same d e); lia.
Qed.
Lemma back_in n w h dir : forall c r p, In p (back n w h dir c r) -> 0 <= fst p < w /\ 0 <= snd p < h.
Proof.
  induction n as [|n IH]; intros c r p I; [destruct I|]. cbn [back] in I. destruct (in_imgb w h c r) eqn:E; [|destruct I].
  destruct I as [<-|I]; [|eauto]. unfold in_imgb in E. rewrite !andb_true_iff, !Z.leb_le, !Z.ltb_lt in E. cbn [fst snd]. lia.
Qed.
Lemma back_first w h dir c r : 0 <= c < w -> 0 <= r < h -> exists rest, past_pixels w h dir c r = (c, r) :: rest.
Proof.
  intros Hc Hr. unfold past_pixels. destruct (Z.to_nat (w + h)) as [|n] eqn:E; [lia|]. cbn [back].
  unfold in_imgb. rewrite (proj2 (Z.leb_le 0 c)), (proj2 (Z.ltb_lt c w)), (proj2 (Z.leb_le 0 r)), (proj2 (Z.ltb_lt r h)) by lia. cbn [andb]. eauto.
Qed.
Lemma zsum_bounds {A} (f : A -> Z) l lo hi : (forall x, In x l -> lo <= f x <= hi) -> Z.of_nat (length l) * lo <= zsum (map f l) <= Z.of_nat (length l) * hi.
Proof.
  induction l as [|a l IH]; intros B; [cbn; lia|]. cbn [map length]. change (zsum (?x :: ?y)) with (x + zsum y).
  specialize (IH (fun x I => B x (or_intror I))). specialize (B a (or_introl eq_refl)). lia.
Qed.

(* the accumulated costs in terms of the match costs *)
Lemma score_eq g starts cost left C c r d : 0 <= c < ocols g -> 0 <= r < orows g -> in_box (pix (bnd g) c r) d ->
  (forall c r d, 0 <= c < ocols g -> 0 <= r < orows g -> in_box (pix (bnd g) c r) d ->
      nth (Z.to_nat (pix starts c r + pos (pix (bnd g) c r) d)) cost 0 = C (c + mincol g) (r + minrow g) d) ->
  zsum (map (fun dir => path_cost (range g) (p1 g) (p2 g) (past_sites g starts cost left dir c r) d) all_directions) = score g C left c r d.
Proof.
  intros Hc Hr Id E. unfold score. f_equal. apply map_ext. intros dir. apply path_cost_ext.
  - unfold past_sites. assert (A : forall p, In p (past_pixels (ocols g) (orows g) dir c r) -> 0 <= fst p < ocols g /\ 0 <= snd p < orows g) by (intros p; apply back_in).
    revert A. generalize (past_pixels (ocols g) (orows g) dir c r). induction l as [|p l IH]; intros A; cbn [map]; constructor.
    + unfold site_at, pixel_site. cbn [s_box s_gray s_cost]. split; auto. split; auto. intros e Ie. apply E; auto; apply (A p (or_introl eq_refl)).
    + apply IH. intros q Iq. apply A. right; auto.
  - unfold past_sites. destruct (back_first (ocols g) (orows g) dir c r Hc Hr) as (rest & ->). cbn [map]. exact Id.
Qed.
