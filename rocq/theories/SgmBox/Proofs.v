(* The loops which compute the search boxes. *)
From Coq Require Import ZArith List Bool Lia.
From Verif Require Import Lib.Base Lib.Lists ImgMem.Model Lib.Img BBox.Model Sgm.Model Sgm.Spec Sgm.Mem SgmBox.Model SgmBox.Spec.
Import ListNotations.
Local Open Scope Z_scope.

Lemma maxl_spec v l : (maxl v l = v \/ In (maxl v l) l) /\ v <= maxl v l /\ forall x, In x l -> x <= maxl v l.
Proof.
  induction l as [|a l IH]; cbn [maxl fold_right].
  - split; [auto|]. split; [lia|intros x []].
  - fold (maxl v l) in *. destruct IH as (E & Hv & Hl).
    split; [|split; [lia|intros x [->|I]; [lia|specialize (Hl x I); lia]]].
    destruct (Z.max_spec a (maxl v l)) as [[_ ->]|[_ ->]]; [|right; left; auto].
    destruct E; [left; auto|right; right; auto].
Qed.
Lemma maxl_unique v l m : (m = v \/ In m l) -> v <= m -> (forall x, In x l -> x <= m) -> maxl v l = m.
Proof.
  intros E Hv Hl. destruct (maxl_spec v l) as (E' & Hv' & Hl').
  assert (maxl v l <= m) by (destruct E' as [->|I]; auto).
  assert (m <= maxl v l) by (destruct E as [->|I]; auto). lia.
Qed.

Lemma minl_uniq v l m : (m = v \/ In m l) -> m <= v -> (forall x, In x l -> m <= x) -> minl v l = m.
Proof.
  intros E Hv Hl. destruct (minl_spec v l) as (E' & Hv' & Hl').
  assert (m <= minl v l) by (destruct E' as [->|I]; auto).
  assert (minl v l <= m) by (destruct E as [->|I]; auto). lia.
Qed.

(* loop over the pixels in rows *)
Lemma grid_loop {S} (P : Z -> Z -> S -> Prop) (body : Z -> Z -> S -> res S) w h s : 0 <= w -> 0 <= h ->
  P 0 0 s ->
  (forall c r s, 0 <= c < w -> 0 <= r < h -> P c r s -> exists s', body c r s = Ok s' /\ P (c + 1) r s') ->
  (forall r s, 0 <= r < h -> P w r s -> P 0 (r + 1) s) ->
  exists s', for_up 0 h (fun r s => for_up 0 w (fun c s => body c r s) s) s = Ok s' /\ P 0 h s'.
Proof.
  intros Hw Hh H0 Hs Hn. apply (for_up_inv (fun r s => P 0 r s)); auto.
  intros r t Hr Pt. destruct (for_up_inv (fun c s => P c r s) (fun c s => body c r s) 0 w t) as (t' & E & P'); auto.
  exists t'. split; auto.
Qed.

Section Scan.
Variable v : Z -> Z.
Variable f : Z -> res Z.
Lemma scan_down_ok n : (forall i, 1 <= i <= Z.of_nat n -> f i = Ok (v i)) ->
  exists o, scan_down f n = Ok o /\
  match o with
  | Some i => 1 <= i <= Z.of_nat n /\ 0 < v i /\ forall j, i < j <= Z.of_nat n -> v j <= 0
  | None => forall j, 1 <= j <= Z.of_nat n -> v j <= 0
  end.
Proof.
  induction n as [|n IH]; intros F; cbn [scan_down].
  - exists None. split; auto. intros. lia.
  - rewrite F by lia. cbn [bind]. destruct (Z.ltb_spec 0 (v (Z.of_nat (S n)))) as [L|L].
    + eexists. split; [reflexivity|]. cbn beta iota. split; [lia|]. split; [auto|intros; lia].
    + destruct IH as (o & E & K); [intros; apply F; lia|]. exists o. split; auto. destruct o as [i|].
      * destruct K as (K1 & K2 & K3). split; [lia|]. split; auto. intros j Hj.
        destruct (Z.eq_dec j (Z.of_nat (S n))) as [->|]; auto. apply K3. lia.
      * intros j Hj. destruct (Z.eq_dec j (Z.of_nat (S n))) as [->|]; auto. apply K. lia.
Qed.
Lemma scan_up_ok n : forall a, (forall i, a <= i < a + Z.of_nat n -> f i = Ok (v i)) ->
  exists o, scan_up f a n = Ok o /\
  match o with
  | Some i => a <= i < a + Z.of_nat n /\ 0 < v i /\ forall j, a <= j < i -> v j <= 0
  | None => forall j, a <= j < a + Z.of_nat n -> v j <= 0
  end.
Proof.
  induction n as [|n IH]; intros a F; cbn [scan_up].
  - exists None. split; auto. intros. lia.
  - rewrite F by lia. cbn [bind]. destruct (Z.ltb_spec 0 (v a)) as [L|L].
    + exists (Some a). split; auto. split; [lia|]. split; [auto|intros; lia].
    + destruct (IH (a + 1)) as (o & E & K); [intros; apply F; lia|]. exists o. split; auto. destruct o as [i|].
      * destruct K as (K1 & K2 & K3). split; [lia|]. split; auto. intros j Hj.
        destruct (Z.eq_dec j a) as [->|]; auto. apply K3. lia.
      * intros j Hj. destruct (Z.eq_dec j a) as [->|]; auto. apply K. lia.
Qed.
End Scan.

Lemma in_rows_on m w y : In y (rows_on m w) <-> 0 <= y < irows m /\ exists x, 0 <= x < w /\ on m x y = true.
Proof.
  unfold rows_on. rewrite filter_In, in_zrange, existsb_exists. split.
  - intros (H & x & I & O). apply in_zrange in I. eauto.
  - intros (H & x & I & O). split; auto. exists x. rewrite in_zrange. auto.
Qed.
Lemma valid_rows_ok m w : 0 <= w <= icols m -> 0 < irows m -> valid_rows m w = Ok (row_limits m w).
Proof.
  intros Hw Hh. unfold valid_rows.
  destruct (for_up_inv (fun c s => s = row_limits m c)
    (fun c s => let '(mn, mx) := s in
      d <- scan_down (fun i => get m c i) (Z.to_nat (irows m - 1)) ;;
      let mx := match d with Some i => if i >? mx then i else mx | None => mx end in
      u <- scan_up (fun i => get m c i) 0 (Z.to_nat (irows m)) ;;
      let mn := match u with Some i => if i <? mn then i else mn | None => mn end in
      Ok (mn, mx)) 0 w (irows m - 1, 0)) as (s' & E & P); [lia| | |].
  - unfold row_limits. assert (rows_on m 0 = []) as ->; [|reflexivity].
    destruct (rows_on m 0) as [|y l] eqn:E; auto. exfalso.
    assert (I : In y (rows_on m 0)) by (rewrite E; left; auto). apply in_rows_on in I as (_ & x & H & _). lia.
  - intros c s Hc ->. unfold row_limits.
    destruct (scan_down_ok (fun i => pix m c i) (fun i => get m c i) (Z.to_nat (irows m - 1))) as (d & Ed & Kd).
    { intros i Hi. apply get_in. split; lia. }
    destruct (scan_up_ok (fun i => pix m c i) (fun i => get m c i) (Z.to_nat (irows m)) 0) as (u & Eu & Ku).
    { intros i Hi. apply get_in. split; lia. }
    rewrite Ed, Eu. cbn [bind]. eexists. split; [reflexivity|].
    destruct (minl_spec (irows m - 1) (rows_on m c)) as (A1 & A2 & A3).
    destruct (maxl_spec 0 (rows_on m c)) as (B1 & B2 & B3).
    set (mn := minl _ (rows_on m c)) in *. set (mx := maxl _ (rows_on m c)) in *. clearbody mn mx.
    assert (Next : forall y, In y (rows_on m (c + 1)) <-> In y (rows_on m c) \/ (0 <= y < irows m /\ on m c y = true)).
    { intros y. rewrite !in_rows_on. split.
      - intros (H & x & Hx & O). destruct (Z.eq_dec x c) as [->|]; [right; auto|left; split; auto; exists x; split; auto; lia].
      - intros [(H & x & Hx & O)|[H O]]; (split; [auto|]); [exists x; split; auto; lia|exists c; split; auto; lia]. }
    unfold on in Next. f_equal.
    + symmetry. apply minl_uniq.
      * destruct u as [i|].
        -- destruct Ku as (K1 & K2 & K3). destruct (Z.ltb_spec i mn).
           ++ right. apply Next. right. split; [lia|]. now apply Z.ltb_lt.
           ++ destruct A1 as [->|I]; [left; auto|right; apply Next; auto].
        -- destruct A1 as [->|I]; [left; auto|right; apply Next; auto].
      * destruct u as [i|]; [destruct (Z.ltb_spec i mn)|]; lia.
      * intros y I. apply Next in I. destruct I as [I|[H O]].
        -- specialize (A3 y I). destruct u as [i|]; [destruct (Z.ltb_spec i mn)|]; lia.
        -- apply Z.ltb_lt in O. destruct u as [i|].
           ++ destruct Ku as (K1 & K2 & K3). assert (i <= y) by (destruct (Z_lt_ge_dec y i); [specialize (K3 y); lia|lia]).
              destruct (Z.ltb_spec i mn); lia.
           ++ specialize (Ku y). lia.
    + symmetry. apply maxl_unique.
      * destruct d as [i|].
        -- destruct Kd as (K1 & K2 & K3). rewrite Z.gtb_ltb. destruct (Z.ltb_spec mx i).
           ++ right. apply Next. right. split; [lia|]. now apply Z.ltb_lt.
           ++ destruct B1 as [->|I]; [left; auto|right; apply Next; auto].
        -- destruct B1 as [->|I]; [left; auto|right; apply Next; auto].
      * destruct d as [i|]; [rewrite Z.gtb_ltb; destruct (Z.ltb_spec mx i)|]; lia.
      * intros y I. apply Next in I. destruct I as [I|[H O]].
        -- specialize (B3 y I). destruct d as [i|]; [rewrite Z.gtb_ltb; destruct (Z.ltb_spec mx i)|]; lia.
        -- apply Z.ltb_lt in O. destruct (Z.eq_dec y 0) as [->|]; [destruct d as [i|]; [rewrite Z.gtb_ltb; destruct (Z.ltb_spec mx i)|]; lia|].
           destruct d as [i|].
           ++ destruct Kd as (K1 & K2 & K3). assert (y <= i) by (destruct (Z_lt_ge_dec i y); [specialize (K3 y); lia|lia]).
              rewrite Z.gtb_ltb. destruct (Z.ltb_spec mx i); lia.
           ++ specialize (Kd y). lia.
  - etransitivity; [exact E|now rewrite P].
Qed.

Lemma in_cols_on m r a x : In x (cols_on m r a) <-> a <= x < icols m /\ on m x r = true.
Proof. unfold cols_on. rewrite filter_In, in_zrange. reflexivity. Qed.
Lemma valid_columns_ok m r : 0 < icols m -> 0 <= r < irows m -> valid_columns m r = Ok (col_limits m r).
Proof.
  intros Hw Hr. unfold valid_columns.
  destruct (scan_down_ok (fun i => pix m i r) (fun i => get m i r) (Z.to_nat (icols m - 1))) as (d & Ed & Kd).
  { intros i Hi. apply get_in. split; lia. }
  destruct (scan_up_ok (fun i => pix m i r) (fun i => get m i r) (Z.to_nat (icols m)) 0) as (u & Eu & Ku).
  { intros i Hi. apply get_in. split; lia. }
  rewrite Ed. cbn [bind]. unfold col_limits. destruct d as [mx|].
  - rewrite Eu. cbn [bind]. destruct Kd as (K1 & K2 & K3).
    assert (I : In mx (cols_on m r 1)) by (apply in_cols_on; split; [lia|]; unfold on; now apply Z.ltb_lt).
    destruct (cols_on m r 1) as [|x l] eqn:E; [destruct I|]. rewrite <- E in *. do 2 f_equal.
    + symmetry. destruct u as [mn|].
      * destruct Ku as (U1 & U2 & U3). apply minl_uniq; [right; apply in_cols_on; split; [lia|unfold on; now apply Z.ltb_lt]|lia|].
        intros y Iy. apply in_cols_on in Iy as [H O]. unfold on in O. apply Z.ltb_lt in O.
        destruct (Z_lt_ge_dec y mn); [specialize (U3 y)|]; lia.
      * specialize (Ku mx). lia.
    + symmetry. apply maxl_unique; auto; [lia|]. intros y Iy. apply in_cols_on in Iy as [H O]. unfold on in O. apply Z.ltb_lt in O.
      destruct (Z_lt_ge_dec mx y); [specialize (K3 y)|]; lia.
  - destruct (cols_on m r 1) as [|x l] eqn:E; auto. exfalso.
    assert (I : In x (cols_on m r 1)) by (rewrite E; left; auto). apply in_cols_on in I as [H O].
    unfold on in O. apply Z.ltb_lt in O. specialize (Kd x). lia.
Qed.

Lemma restrict_ok cols rows c r b : restrict cols rows c r b =
  Ok (let o := meet (limit_box cols rows c r) b in if filledb o then Some o else None).
Proof.
  unfold restrict, unshift, limit_box. destruct cols as [x0 x1], rows as [y0 y1]. cbn [fst snd].
  assert (EE : empty (mkB [x0; y0] [x1; y1]) = negb ((x0 <? x1) && (y0 <? y1))).
  { unfold empty, any_ge, dim. cbn [bmin bmax length Nat.leb]. rewrite !Z.geb_leb.
    destruct (Z.leb_spec x1 x0), (Z.leb_spec y1 y0), (Z.ltb_spec x0 x1), (Z.ltb_spec y0 y1); auto; lia. }
  rewrite EE.
  assert (MX : forall a b, (if a <? b then b else a) = Z.max a b) by (intros a e; destruct (Z.ltb_spec a e); lia).
  assert (MN : forall a b, (if a >? b then b else a) = Z.min a b) by (intros a e; rewrite Z.gtb_ltb; destruct (Z.ltb_spec e a); lia).
  destruct ((x0 <? x1) && (y0 <? y1)); cbn [negb map2]; unfold crop, dim_check, dim; cbn [bmin bmax length Nat.eqb orb negb bind map2 nth];
    rewrite !MX, !MN; unfold meet, filledb; cbn [bx0 by0 bx1 by1];
    match goal with |- (if ?p then _ else _) = Ok (if ?q then _ else _) => replace q with (negb p);
      [destruct p; reflexivity|rewrite !Z.gtb_ltb, negb_orb, <- !Z.leb_antisym; reflexivity] end.
Qed.

Section G.
Variable g : sgm.
Variables (sbx sby : Z).
Variable prev : option (img (option (Z * Z))).

Lemma prior_ok c r : 0 <= c -> 0 <= r -> prior g prev c r = Ok (trusted g prev c r).
Proof.
  intros Hc Hr. unfold prior, trusted, prior_at. destruct prev as [p|]; auto.
  unfold cdiv. cbn [Z.eqb bind]. rewrite !Z.quot_div_nonneg by lia.
  assert (0 <= c / 2 /\ 0 <= r / 2) by (split; apply Z.div_pos; lia).
  assert (EI : insideb p (c / 2) (r / 2) = negb ((c / 2 >=? icols p) || (r / 2 >=? irows p))).
  { unfold insideb. rewrite !Z.geb_leb. destruct (Z.leb_spec (icols p) (c / 2)), (Z.leb_spec (irows p) (r / 2)),
      (Z.ltb_spec (c / 2) (icols p)), (Z.ltb_spec (r / 2) (irows p)), (Z.leb_spec 0 (c / 2)), (Z.leb_spec 0 (r / 2)); auto; lia. }
  rewrite EI. destruct ((c / 2 >=? icols p) || (r / 2 >=? irows p)) eqn:E; cbn [negb]; auto.
  unfold get. rewrite EI. cbn [negb bind]. destruct (pix p (c / 2) (r / 2)) as [[dx dy]|]; auto.
  cbn [fst snd]. unfold at_end. rewrite !Z.geb_leb, !(Z.mul_comm 2).
  match goal with |- (if ?a then _ else _) = Ok (if ?a then _ else _) => destruct a; reflexivity end.
Qed.

Lemma around_ok dx dy : around g sbx sby dx dy = meet (Box (dx - sbx) (dy - sby) (dx + sbx) (dy + sby)) (range g).
Proof.
  unfold around, meet, range. cbn [bx0 by0 bx1 by1]. rewrite !Z.gtb_ltb.
  f_equal; match goal with |- context[?a <? ?b] => destruct (Z.ltb_spec a b); lia end.
Qed.

Lemma boxeqb_same a b : boxeqb a b = same_box a b.
Proof. reflexivity. Qed.

Variables (lm rm : option (img Z)).
Hypothesis MF : mask_fits g lm rm.
Hypothesis W : 0 < ocols g.
Hypothesis H : 0 < orows g.
Hypothesis HX : mnx g <= mxx g.
Hypothesis HY : mny g <= mxy g.
Notation first := (first_box g sbx sby prev lm rm).
Notation open := (open_pixel g sbx sby prev lm rm).

(* pixels before (c,r) in the order of the loops *)
Definition before (c r i j : Z) : Prop := j < r \/ (j = r /\ i < c).
Definition sized {A} (m : img A) : Prop := icols m = ocols g /\ irows m = orows g.

Definition halfway (c r : Z) (s : img box * img bool) : Prop :=
  sized (fst s) /\ sized (snd s) /\
  (forall i j, 0 <= i < ocols g -> 0 <= j < orows g -> before c r i j ->
     pix (fst s) i j = first i j /\ pix (snd s) i j = open i j) /\
  (forall i j, 0 <= i < ocols g -> 0 <= j < orows g -> ~ before c r i j -> pix (snd s) i j = false).

Lemma put_sized {A} (m : img A) c r v : sized m -> 0 <= c < ocols g -> 0 <= r < orows g ->
  exists m', put m c r v = Ok m' /\ sized m' /\ pix m' c r = v /\ (forall i j, i <> c \/ j <> r -> pix m' i j = pix m i j).
Proof.
  intros [A1 A2] Hc Hr. destruct (put_in m c r v) as (m' & E & B1 & B2 & B3 & B4); [split; lia|].
  exists m'. split; auto. split; [split; lia|auto].
Qed.

Lemma pixel_bounds_ok c r s : 0 <= c < ocols g -> 0 <= r < orows g -> halfway c r s ->
  exists s', pixel_bounds g sbx sby prev lm (option_map (fun m => row_limits m (ocols g)) rm)
    (option_map (fun m => col_limits m r) rm) c r s = Ok s' /\ halfway (c + 1) r s'.
Proof.
  intros Hc Hr (S1 & S2 & P1 & P2). destruct s as [bn full]. cbn [fst snd] in *.
  assert (Fin : forall bn' full', sized bn' -> sized full' -> pix bn' c r = first c r -> pix full' c r = open c r ->
     (forall i j, i <> c \/ j <> r -> pix bn' i j = pix bn i j) -> (forall i j, i <> c \/ j <> r -> pix full' i j = pix full i j) ->
     halfway (c + 1) r (bn', full')).
  { intros bn' full' T1 T2 E1 E2 O1 O2. split; auto. split; auto. cbn [fst snd]. split.
    - intros i j Hi Hj B. destruct (Z.eq_dec i c) as [->|Ni].
      + destruct (Z.eq_dec j r) as [->|Nj]; [auto|]. rewrite O1, O2 by auto. apply P1; auto. unfold before in *. lia.
      + rewrite O1, O2 by auto. apply P1; auto. unfold before in *. lia.
    - intros i j Hi Hj B. assert (i <> c \/ j <> r) by (unfold before in *; lia). rewrite O2 by auto. apply P2; auto.
      unfold before in *. lia. }
  assert (F0 : pix full c r = false) by (apply P2; auto; unfold before; lia).
  unfold pixel_bounds.
  assert (EM : match lm with Some m => v <- get m c r ;; Ok (v =? 0) | None => Ok false end = Ok (masked lm c r)).
  { unfold masked. destruct lm as [m|]; auto. destruct MF as [[A B] _]. rewrite get_in by (split; lia). reflexivity. }
  rewrite EM. cbn [bind]. destruct (masked lm c r) eqn:Em.
  - destruct (put_sized bn c r zero_area S1 Hc Hr) as (bn' & E & T & V & O). rewrite E. cbn [bind].
    eexists. split; [reflexivity|]. apply Fin; auto.
    + unfold first_box. rewrite Em. auto.
    + unfold open_pixel. rewrite Em. cbn [negb andb]. auto.
  - rewrite prior_ok by lia. cbn [bind].
    assert (EB : exists full', match trusted g prev c r with
        | Some (dx, dy) => Ok (around g sbx sby dx dy, full)
        | None => full <- put full c r true ;; Ok (whole_range g, full) end = Ok (guess_box g sbx sby prev c r, full') /\
        sized full' /\ pix full' c r = match trusted g prev c r with Some _ => false | None => true end /\
        (forall i j, i <> c \/ j <> r -> pix full' i j = pix full i j)).
    { unfold guess_box. destruct (trusted g prev c r) as [[dx dy]|].
      - exists full. rewrite around_ok. auto.
      - destruct (put_sized full c r true S2 Hc Hr) as (full' & E & T & V & O). exists full'. rewrite E. auto. }
    destruct EB as (full' & EB & T2 & V2 & O2). rewrite EB. cbn [bind].
    destruct rm as [m|] eqn:Erm; cbn [option_map].
    + rewrite restrict_ok. cbn [bind]. cbv zeta.
      set (o := meet _ (guess_box g sbx sby prev c r)).
      assert (EO : pix full' c r = true -> filledb o = filledb (meet (limit_box (col_limits m r) (row_limits m (ocols g)) c r) (range g))).
      { rewrite V2. unfold o, guess_box. destruct (trusted g prev c r); [discriminate|auto]. }
      destruct (filledb o) eqn:Ef.
      * destruct (put_sized bn c r o S1 Hc Hr) as (bn' & E & T & V & O). rewrite E. cbn [bind].
        eexists. split; [reflexivity|]. apply Fin; auto.
        -- unfold first_box. rewrite Em. rewrite V. unfold o in *. rewrite Ef. auto.
        -- unfold open_pixel. rewrite Em. cbn [negb andb]. rewrite <- V2.
           destruct (pix full' c r); [|auto]. rewrite <- EO; auto.
      * destruct (put_sized bn c r zero_area S1 Hc Hr) as (bn' & E & T & V & O). rewrite E. cbn [bind].
        destruct (put_sized full' c r false T2 Hc Hr) as (full2 & E2 & T3 & V3 & O3). rewrite E2. cbn [bind].
        eexists. split; [reflexivity|]. apply Fin; auto.
        -- unfold first_box. rewrite Em. rewrite V. unfold o in *. rewrite Ef. auto.
        -- unfold open_pixel. rewrite Em. cbn [negb andb]. rewrite <- V2, V3.
           destruct (pix full' c r); [|auto]. rewrite <- EO; auto.
        -- intros i j N. rewrite O3, O2; auto.
    + destruct (put_sized bn c r (guess_box g sbx sby prev c r) S1 Hc Hr) as (bn' & E & T & V & O). rewrite E. cbn [bind].
      eexists. split; [reflexivity|]. apply Fin; auto.
      * unfold first_box. rewrite Em. auto.
      * unfold open_pixel. rewrite Em. cbn [negb andb]. rewrite andb_true_r. auto.
Qed.

Definition near_list (n c r : Z) := near_boxes (ocols g) (orows g) first open n c r.

(* the search around a pixel *)
Section Look.
Variables (full : img bool) (bn : img box).
Hypothesis SF : sized full.
Hypothesis SB : sized bn.
Hypothesis FO : forall i j, 0 <= i < ocols g -> 0 <= j < orows g -> pix full i j = open i j.
Hypothesis BO : forall i j, 0 <= i < ocols g -> 0 <= j < orows g -> open i j = false -> pix bn i j = first i j.

Definition as_bbox (b : box) : bbox := mkB [bx0 b; by0 b] [bx1 b; by1 b].
Definition one (x y : Z) : list box := if open x y || same_box (first x y) nothing then [] else [first x y].

Lemma fold_app {A} (f : A -> A -> A) v l l' : fold_right f v (l ++ l') = fold_right f (fold_right f v l') l.
Proof. apply fold_right_app. Qed.
Lemma minl_app v l l' : minl v (l ++ l') = Z.min (minl v l) (minl v l').
Proof.
  unfold minl. induction l as [|a l IH]; cbn [app fold_right]; [|rewrite IH; lia].
  fold (minl v l'). destruct (minl_spec v l') as (_ & K & _). lia.
Qed.
Lemma maxl_app v l l' : maxl v (l ++ l') = Z.max (maxl v l) (maxl v l').
Proof.
  unfold maxl. induction l as [|a l IH]; cbn [app fold_right]; [|rewrite IH; lia].
  fold (maxl v l'). destruct (maxl_spec v l') as (_ & K & _). lia.
Qed.
Lemma hull_snoc l b : hull (l ++ [b]) =
  Box (Z.min (Z.min (bx0 (hull l)) (bx0 b)) (bx1 b)) (Z.min (Z.min (by0 (hull l)) (by0 b)) (by1 b))
      (Z.max (Z.max (bx1 (hull l)) (bx0 b)) (bx1 b)) (Z.max (Z.max (by1 (hull l)) (by0 b)) (by1 b)).
Proof.
  unfold hull. rewrite !flat_map_app, !minl_app, !maxl_app. cbn [flat_map app minl maxl fold_right bx0 by0 bx1 by1].
  fold (minl 2147483646 (flat_map (fun b => [bx0 b; bx1 b]) l)). fold (minl 2147483646 (flat_map (fun b => [by0 b; by1 b]) l)).
  destruct (minl_spec 2147483646 (flat_map (fun b => [bx0 b; bx1 b]) l)) as (_ & K1 & _).
  destruct (minl_spec 2147483646 (flat_map (fun b => [by0 b; by1 b]) l)) as (_ & K2 & _).
  destruct (maxl_spec (-2147483646) (flat_map (fun b => [bx0 b; bx1 b]) l)) as (_ & K3 & _).
  destruct (maxl_spec (-2147483646) (flat_map (fun b => [by0 b; by1 b]) l)) as (_ & K4 & _).
  f_equal; lia.
Qed.
Lemma grow_ok u p q : grow_point (as_bbox u) [p; q] =
  Ok (as_bbox (Box (Z.min (bx0 u) p) (Z.min (by0 u) q) (Z.max (bx1 u) p) (Z.max (by1 u) q))).
Proof.
  unfold grow_point, dim_check, dim, as_bbox. cbn [bmin bmax length Nat.eqb orb negb map2 bx0 by0 bx1 by1].
  unfold grow_min, grow_max. rewrite !Z.gtb_ltb. do 2 f_equal; [f_equal; [|f_equal]|f_equal; [|f_equal]];
    match goal with |- context[?a <? ?b] => destruct (Z.ltb_spec a b); lia end.
Qed.

Lemma look_ok r0 r1 c0 c1 : 0 <= r0 -> r1 <= orows g -> 0 <= c0 -> c1 <= ocols g -> r0 <= r1 -> c0 <= c1 ->
  for_up r0 r1 (fun rs nr =>
    for_up c0 c1 (fun cs nr =>
      f <- get full cs rs ;;
      if f : bool then Ok nr
      else
        v <- get bn cs rs ;;
        if boxeqb v zero_area then Ok nr
        else nr <- grow_point nr [bx0 v; by0 v] ;; grow_point nr [bx1 v; by1 v]) nr) (default_int 2) =
  Ok (as_bbox (hull (flat_map (fun y => flat_map (fun x => one x y) (zrange c0 c1)) (zrange r0 r1)))).
Proof.
  intros A1 A2 A3 A4 A5 A6.
  assert (ZS : forall a b, a <= b -> zrange a (b + 1) = zrange a b ++ [b]).
  { intros a b Hab. unfold zrange. replace (Z.to_nat (b + 1 - a)) with (S (Z.to_nat (b - a))) by lia.
    generalize (Z.to_nat (b - a)) as n, (Z2Nat.id (b - a) ltac:(lia)). intros n En.
    assert (X : forall n a, zseq a (S n) = zseq a n ++ [a + Z.of_nat n]).
    { clear. induction n as [|n IH]; intros a; [cbn; f_equal; lia|]. cbn [zseq] in *. rewrite IH. cbn [app]. do 2 f_equal. f_equal. lia. }
    rewrite X. do 2 f_equal. lia. }
  destruct (for_up_inv (fun y s => s = as_bbox (hull (flat_map (fun y => flat_map (fun x => one x y) (zrange c0 c1)) (zrange r0 y))))
    (fun rs nr =>
    for_up c0 c1 (fun cs nr =>
      f <- get full cs rs ;;
      if f : bool then Ok nr
      else
        v <- get bn cs rs ;;
        if boxeqb v zero_area then Ok nr
        else nr <- grow_point nr [bx0 v; by0 v] ;; grow_point nr [bx1 v; by1 v]) nr) r0 r1 (default_int 2)) as (s & E & P); auto.
  - unfold zrange. rewrite Z.sub_diag. reflexivity.
  - intros y s Hy ->.
    destruct (for_up_inv (fun x s => s = as_bbox (hull (flat_map (fun y => flat_map (fun x => one x y) (zrange c0 c1)) (zrange r0 y) ++
         flat_map (fun x => one x y) (zrange c0 x))))
      (fun cs nr =>
      f <- get full cs y ;;
      if f : bool then Ok nr
      else
        v <- get bn cs y ;;
        if boxeqb v zero_area then Ok nr
        else nr <- grow_point nr [bx0 v; by0 v] ;; grow_point nr [bx1 v; by1 v]) c0 c1
      (as_bbox (hull (flat_map (fun y => flat_map (fun x => one x y) (zrange c0 c1)) (zrange r0 y))))) as (s & E & P); auto.
    + assert (Z0 : zrange c0 c0 = []) by (unfold zrange; rewrite Z.sub_diag; reflexivity).
      rewrite Z0. cbn [flat_map]. now rewrite app_nil_r.
    + intros x s Hx ->. destruct SF, SB. rewrite get_in by (split; lia). cbn [bind]. rewrite FO by lia.
      rewrite ZS by lia. rewrite flat_map_app, app_assoc. cbn [flat_map]. rewrite app_nil_r.
      assert (O1 : one x y = if open x y || same_box (first x y) nothing then [] else [first x y]) by reflexivity. rewrite O1.
      destruct (open x y) eqn:Eo; cbn [orb].
      * rewrite app_nil_r. eauto.
      * rewrite get_in by (split; lia). cbn [bind]. rewrite (BO x y) by (auto; lia). rewrite boxeqb_same. change zero_area with nothing.
        destruct (same_box (first x y) nothing).
        -- rewrite app_nil_r. eauto.
        -- rewrite grow_ok. cbn [bind]. rewrite grow_ok. eexists. split; [reflexivity|]. rewrite hull_snoc. reflexivity.
    + exists s. split; auto. rewrite P, ZS by lia. rewrite flat_map_app. cbn [flat_map]. now rewrite app_nil_r.
  - rewrite E, P. reflexivity.
Qed.
End Look.

Notation last := (last_box g sbx sby prev lm rm).
Definition level_ok (k : Z) : Prop := 0 <= k <= 3.
Lemma reach_ok k : level_ok k -> look_range k = reach k /\ 0 <= reach k.
Proof.
  unfold level_ok. intros Hk. assert (E : k = 0 \/ k = 1 \/ k = 2 \/ k = 3) by lia.
  destruct E as [->|[->|[->| ->]]]; (split; [reflexivity|vm_compute; discriminate]).
Qed.

(* what holds before and after each level *)
Definition kept (full : img bool) (bn : img box) : Prop :=
  sized full /\ sized bn /\
  (forall i j, 0 <= i < ocols g -> 0 <= j < orows g -> pix full i j = open i j) /\
  (forall i j, 0 <= i < ocols g -> 0 <= j < orows g -> open i j = false -> pix bn i j = first i j).
(* the box an open pixel without neighbours has *)
Definition lonely (k : Z) (bn : img box) : Prop :=
  k = 0 -> forall i j, 0 <= i < ocols g -> 0 <= j < orows g -> pix bn i j = first i j.

Lemma shrink_pixel_ok k full bn c r : level_ok k -> kept full bn ->
  (k = 0 -> pix bn c r = first c r) ->
  0 <= c < ocols g -> 0 <= r < orows g -> prev <> None ->
  exists bn', shrink_pixel g k full c r bn = Ok bn' /\ sized bn' /\ pix bn' c r = last k c r /\
    (forall i j, i <> c \/ j <> r -> pix bn' i j = pix bn i j).
Proof.
  intros Hk (SF & SB & FO & BO) Lo Hc Hr HP. unfold shrink_pixel.
  destruct (reach_ok k Hk) as [-> Hn]. set (n := reach k) in *. pose proof SF as [F1 F2]. pose proof SB as [B1 B2].
  rewrite get_in by (split; lia). cbn [bind]. rewrite FO by auto.
  assert (EL : last k c r = if open c r
      then let u := hull (near_boxes (ocols g) (orows g) first open n c r) in
           if thin u then (if 0 <? k then nothing else first c r) else meet (grown u) (range g)
      else first c r).
  { unfold last_box. destruct prev; [reflexivity|congruence]. }
  rewrite EL. destruct (open c r) eqn:Eo; cbn [negb].
  2: { exists bn. split; auto. }
  rewrite !Z.geb_leb, B1, B2.
  assert (X0 : (if r - n <? 0 then 0 else r - n) = Z.max 0 (r - n)) by (destruct (Z.ltb_spec (r - n) 0); lia).
  assert (X1 : (if orows g <=? r + n then orows g - 1 else r + n) = Z.min (orows g - 1) (r + n)) by (destruct (Z.leb_spec (orows g) (r + n)); lia).
  assert (X2 : (if c - n <? 0 then 0 else c - n) = Z.max 0 (c - n)) by (destruct (Z.ltb_spec (c - n) 0); lia).
  assert (X3 : (if ocols g <=? c + n then ocols g - 1 else c + n) = Z.min (ocols g - 1) (c + n)) by (destruct (Z.leb_spec (ocols g) (c + n)); lia).
  cbv zeta. rewrite X0, X1, X2, X3.
  rewrite (look_ok full bn SF SB FO BO) by lia. cbn [bind].
  fold (near_boxes (ocols g) (orows g) first open n c r).
  change (flat_map _ (zrange (Z.max 0 (r - n)) (Z.min (orows g - 1) (r + n) + 1))) with (near_boxes (ocols g) (orows g) first open n c r).
  set (u := hull (near_boxes (ocols g) (orows g) first open n c r)).
  assert (ET : empty (as_bbox u) = thin u).
  { unfold empty, any_ge, dim, as_bbox, thin. cbn [bmin bmax length Nat.leb]. rewrite !Z.geb_leb.
    destruct (bx1 u <=? bx0 u), (by1 u <=? by0 u); reflexivity. }
  rewrite ET. destruct (thin u) eqn:Et.
  - rewrite Z.gtb_ltb. destruct (Z.ltb_spec 0 k) as [K|K].
    + destruct (put_sized bn c r zero_area SB Hc Hr) as (bn' & E & T & V & O). exists bn'. auto.
    + exists bn. split; auto. split; auto. split; auto. apply Lo. unfold level_ok in Hk. lia.
  - unfold expand. rewrite ET. unfold as_bbox. cbn [bmin bmax map]. unfold crop, dim_check, dim.
    cbn [bmin bmax length Nat.eqb orb negb bind map2 nth].
    match goal with |- context[put bn c r ?b] => assert (EB : b = meet (grown u) (range g)) end.
    { unfold meet, grown, range. cbn [bx0 by0 bx1 by1]. rewrite !Z.gtb_ltb.
      f_equal; match goal with |- context[?a <? ?b] => destruct (Z.ltb_spec a b); lia end. }
    rewrite EB. destruct (put_sized bn c r (meet (grown u) (range g)) SB Hc Hr) as (bn' & E & T & V & O). exists bn'. auto.
Qed.

Lemma last_closed k c r : open c r = false -> last k c r = first c r.
Proof. intros E. unfold last_box. destruct prev; auto. now rewrite E. Qed.

Lemma shrink_ok k full bn : level_ok k -> kept full bn -> lonely k bn -> (prev = None -> boxes_of g first bn) ->
  exists bn', shrink g prev k full bn = Ok bn' /\ kept full bn' /\ boxes_of g (last k) bn'.
Proof.
  intros Hk K Lo HN. unfold shrink. destruct prev as [p|] eqn:EP.
  - destruct K as (SF & SB & FO & BO). pose proof SB as [B1 B2]. rewrite B1, B2.
    destruct (grid_loop (fun c r m => sized m /\
       (forall i j, 0 <= i < ocols g -> 0 <= j < orows g -> before c r i j -> pix m i j = last k i j) /\
       (forall i j, 0 <= i < ocols g -> 0 <= j < orows g -> ~ before c r i j -> pix m i j = pix bn i j))
       (fun c r m => shrink_pixel g k full c r m) (ocols g) (orows g) bn) as (bn' & E & S' & P' & _); try lia.
    + split; auto. split; auto. intros i j Hi Hj Hb. unfold before in Hb. lia.
    + intros c r m Hc Hr (Sm & P1 & P2).
      assert (Km : kept full m).
      { split; auto. split; auto. split; auto. intros i j Hi Hj Ho.
        destruct (Z_lt_ge_dec j r) as [|]; [|destruct (Z_lt_ge_dec i c); [destruct (Z.eq_dec j r)|]].
        - rewrite P1 by (auto; unfold before; lia). now apply last_closed.
        - rewrite P1 by (auto; unfold before; lia). now apply last_closed.
        - rewrite P2 by (auto; unfold before; lia). auto.
        - destruct (Z.eq_dec j r); rewrite P2 by (auto; unfold before; lia); auto. }
      destruct (shrink_pixel_ok k full m c r) as (m' & E & S' & V & O); auto.
      { intros K0. rewrite P2 by (auto; unfold before; lia). apply Lo; auto. }
      { rewrite EP. discriminate. }
      exists m'. split; auto. split; auto. split.
      * intros i j Hi Hj Hb. destruct (Z.eq_dec i c) as [->|Ni].
        -- destruct (Z.eq_dec j r) as [->|Nj]; [exact V|]. rewrite O by auto. apply P1; auto. unfold before in *. lia.
        -- rewrite O by auto. apply P1; auto. unfold before in *. lia.
      * intros i j Hi Hj Hb. rewrite O by (unfold before in Hb; lia). apply P2; auto. unfold before in *. lia.
    + intros r m Hr (Sm & P1 & P2). split; auto. split.
      * intros i j Hi Hj Hb. apply P1; auto. unfold before in *. lia.
      * intros i j Hi Hj Hb. apply P2; auto. unfold before in *. lia.
    + exists bn'. split; auto.
      assert (PA : forall i j, 0 <= i < ocols g -> 0 <= j < orows g -> pix bn' i j = last k i j).
      { intros i j Hi Hj. apply P'; auto. unfold before. lia. }
      split.
      * split; auto. split; auto. split; auto. intros i j Hi Hj Ho. rewrite PA by auto. now apply last_closed.
      * destruct S' as [T1 T2]. split; auto. split; auto. intros c r [Ic Ir]. rewrite <- EP. apply PA; lia.
  - exists bn. split; auto.
Qed.

Lemma try_levels_ok fits full ks : forall bn, Forall level_ok ks -> kept full bn ->
  (forall k, hd_error ks = Some k -> lonely k bn) -> (forall k, In k (tl ks) -> k <> 0) ->
  (prev = None -> boxes_of g first bn) -> ks <> [] ->
  exists bn' ok, try_levels g prev fits ks full bn = Ok (bn', ok) /\
    exists before k after, ks = before ++ k :: after /\ boxes_of g (last k) bn' /\ fits bn' = ok /\
      Forall (fun j => exists m, boxes_of g (last j) m /\ fits m = false) before /\ (ok = false -> after = []).
Proof.
  induction ks as [|k ks IH]; intros bn F K Lo Nz HN Ne; [congruence|]. inversion F; subst. cbn [try_levels].
  destruct (shrink_ok k full bn) as (bn1 & E & K1 & B1); auto.
  rewrite E. cbn [bind]. destruct (fits bn1) eqn:Ef.
  - exists bn1, true. split; auto. exists [], k, ks. split; auto. split; auto. split; auto. split; [constructor|discriminate].
  - destruct ks as [|k' ks].
    + exists bn1, false. split; auto. exists [], k, []. repeat split; auto; try apply B1.
    + destruct (IH bn1) as (bn' & ok & E' & bs & k2 & af & E2 & B2 & F2 & FB & FA); auto.
      * intros j Ej. cbn in Ej. injection Ej as <-. intros Z0. exfalso. apply (Nz k'); [left; auto|auto].
      * intros j Ij. apply Nz. right. exact Ij.
      * intros HPN. destruct B1 as (T1 & T2 & T3). split; auto. split; auto. intros c r I. rewrite T3 by auto.
        unfold last_box. rewrite HPN. reflexivity.
      * discriminate.
      * exists bn', ok. split; auto. exists (k :: bs), k2, af. rewrite E2. split; auto. split; auto. split; auto. split; auto.
        constructor; auto. exists bn1. auto.
Qed.

Lemma populate_ok fits : exists bn ok, populate g sbx sby prev fits lm rm = Ok (bn, ok) /\
  exists before k after, [0; 1; 2; 3] = before ++ k :: after /\ boxes_of g (last k) bn /\ fits bn = ok /\
    Forall (fun j => exists m, boxes_of g (last j) m /\ fits m = false) before /\ (ok = false -> after = []).
Proof.
  unfold populate.
  assert (C1 : match lm with Some m => negb ((icols m =? ocols g) && (irows m =? orows g)) | None => false end = false).
  { destruct lm as [m|]; auto. destruct MF as [[A B] _]. rewrite A, B, !Z.eqb_refl. reflexivity. }
  rewrite C1.
  assert (C2 : match rm with Some m => negb ((icols m >=? ocols g + ndx g - 1) && (irows m >=? orows g + ndy g - 1)) | None => false end = false).
  { destruct rm as [m|]; auto. destruct MF as [_ [A B]]. unfold ndx, ndy.
    rewrite !Z.geb_leb, (proj2 (Z.leb_le _ (icols m))), (proj2 (Z.leb_le _ (irows m))) by lia. reflexivity. }
  rewrite C2.
  assert (E1 : match rm with Some m => x <- valid_rows m (ocols g) ;; Ok (Some x) | None => Ok None end =
     Ok (option_map (fun m => row_limits m (ocols g)) rm)).
  { destruct rm as [m|]; auto. destruct MF as [_ [A B]]. rewrite valid_rows_ok by lia. reflexivity. }
  rewrite E1. cbn [bind].
  destruct (for_up_inv (fun r s => halfway 0 r s)
    (fun r s =>
       cols <- match rm with Some m => x <- valid_columns m r ;; Ok (Some x) | None => Ok None end ;;
       for_up 0 (ocols g) (fun c s => pixel_bounds g sbx sby prev lm (option_map (fun m => row_limits m (ocols g)) rm) cols c r s) s)
    0 (orows g) (constant_bounds g, Img (ocols g) (orows g) (fun _ _ => false))) as (s & E & Hs); [lia| | |].
  - split; [split; reflexivity|]. split; [split; reflexivity|]. split; [|auto].
    intros i j Hi Hj Hb. unfold before in Hb. lia.
  - intros r s Hr Hs.
    assert (E2 : match rm with Some m => x <- valid_columns m r ;; Ok (Some x) | None => Ok None end =
       Ok (option_map (fun m => col_limits m r) rm)).
    { destruct rm as [m|]; auto. destruct MF as [_ [A B]]. rewrite valid_columns_ok by lia. reflexivity. }
    rewrite E2. cbn [bind].
    destruct (for_up_inv (fun c s => halfway c r s)
      (fun c s => pixel_bounds g sbx sby prev lm (option_map (fun m => row_limits m (ocols g)) rm) (option_map (fun m => col_limits m r) rm) c r s)
      0 (ocols g) s) as (s' & E & (S1 & S2 & P1 & P2)); auto; [lia|intros c t Hc Ht; apply pixel_bounds_ok; auto|].
    exists s'. split; auto. split; auto. split; auto. split.
    + intros i j Hi Hj Hb. apply P1; auto. unfold before in *. lia.
    + intros i j Hi Hj Hb. apply P2; auto. unfold before in *. lia.
  - rewrite E. cbn [bind]. destruct Hs as (S1 & S2 & P1 & _).
    assert (PA : forall i j, 0 <= i < ocols g -> 0 <= j < orows g -> pix (fst s) i j = first i j /\ pix (snd s) i j = open i j).
    { intros i j Hi Hj. apply P1; auto. unfold before. lia. }
    apply try_levels_ok.
    + repeat constructor; unfold level_ok; lia.
    + split; auto. split; auto. split; intros; apply PA; auto.
    + intros k _ _ i j Hi Hj. apply PA; auto.
    + intros k. cbn. intros [<-|[<-|[<-|[]]]]; lia.
    + intros _. destruct S1 as [T1 T2]. split; auto. split; auto. intros c r [I1 I2]. apply PA; lia.
    + discriminate.
Qed.
End G.
