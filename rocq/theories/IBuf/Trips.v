(* Two conversions in a row, parts of buffers, contiguous buffers. *)
From Coq Require Import ZArith List Bool Lia.
From Verif Require Import Lib.Base IBuf.Model IBuf.Spec IBuf.Mem IBuf.Proofs IBuf.Loops IBuf.More IBuf.Laws.
Import ListNotations.
Local Open Scope Z_scope.

Lemma compatible_sym a b : compatible a b -> compatible b a.
Proof. intros [H|H K|H]; [apply comp_same; auto|apply comp_colour; auto|apply comp_twin; tauto]. Qed.

Lemma there_and_back fo mm mid sm src bm back rs : direct mm mid sm src ->
  alpha_tested (bfmt mid) (bfmt src) -> alpha_tested (bfmt src) (bfmt mid) ->
  bfmt back = bfmt src -> bytes_ok bm -> fits bm back -> apart back ->
  (forall k r c, in_buffer src k r c -> exists ys,
     converted fo (bfmt mid) (bfmt src) rs (pixel_at sm src k r c) = Ok ys /\
     converted fo (bfmt src) (bfmt mid) rs ys = Ok (pixel_at sm src k r c)) ->
  exists mm' bm', convert fo mm mid sm src rs = Ok mm' /\ convert fo bm back mm' mid rs = Ok bm' /\
    forall k r c, in_buffer src k r c -> pixel_at bm' back k r c = pixel_at sm src k r c.
Proof.
  intros D A1 A2 EB BB FB AB H.
  destruct (direct_spec fo mm mid sm src rs D A1) as [R _].
  destruct R as (mm' & E & L & BM & V & U).
  { intros k r c I. destruct (H k r c I) as (ys & Y & _). eauto. }
  assert (D2 : direct bm back mm' mid).
  { destruct D as [C K ND NS [S1 S2] PL BS BD FS FD AP]. destruct (compatible_channels _ _ C K) as [KD _].
    split; rewrite ?EB; auto using compatible_sym.
    - split; auto.
    - intros k r c I. rewrite L. apply FD; auto. }
  assert (IM : forall k r c, in_buffer mid k r c <-> in_buffer src k r c).
  { intros. unfold in_buffer. destruct (di_size _ _ _ _ D) as [-> ->]. rewrite (di_planes _ _ _ _ D). tauto. }
  assert (P : forall k r c, in_buffer src k r c ->
     converted fo (bfmt src) (bfmt mid) rs (pixel_at mm' mid k r c) = Ok (pixel_at sm src k r c)).
  { intros k r c I. destruct (H k r c I) as (ys & Y1 & Y2). rewrite V in Y1 by auto. congruence. }
  destruct (direct_spec fo bm back mm' mid rs D2) as [R _]; [rewrite EB; auto|].
  destruct R as (bm' & E' & L' & BM' & V' & U').
  { intros k r c I. apply IM in I. rewrite EB. eexists. apply P; auto. }
  exists mm', bm'. do 2 (split; auto). intros k r c I.
  specialize (V' k r c (proj2 (IM k r c) I)). rewrite EB, P in V' by auto. congruence.
Qed.

(* channels *)
Definition mapM_back (f g : Z -> res Z) (l : list Z) : Prop :=
  exists ys, mapM f l = Ok ys /\ mapM g ys = Ok l.
Lemma mapM_back_ok f g l : (forall x, In x l -> exists y, f x = Ok y /\ g y = Ok x) -> mapM_back f g l.
Proof.
  unfold mapM_back. induction l as [|x l IH]; intros H; [exists []; split; reflexivity|].
  destruct (H x (or_introl eq_refl)) as (y & F & G).
  destruct IH as (ys & F' & G'); [intros; apply H; right; auto|].
  exists (y :: ys). cbn [mapM]. rewrite F, F', G, G'. split; reflexivity.
Qed.
Lemma norm_narrow s d v : csize0 s <= csize0 d -> norm s (norm d v) = norm s v.
Proof.
  intros L. apply norm_cong.
  pose proof (csize0_nonneg s) as S0. pose proof (norm_mod d v) as M.
  assert (P1 : 0 < 2 ^ (8 * csize0 s)) by (apply Z.pow_pos_nonneg; lia).
  assert (E : 2 ^ (8 * csize0 d) = 2 ^ (8 * csize0 s) * 2 ^ (8 * (csize0 d - csize0 s))).
  { rewrite <- Z.pow_add_r by lia. f_equal. lia. }
  assert (P2 : 0 < 2 ^ (8 * (csize0 d - csize0 s))) by (apply Z.pow_pos_nonneg; lia).
  set (p := 2 ^ (8 * csize0 s)) in *. set (q := 2 ^ (8 * (csize0 d - csize0 s))) in *.
  rewrite E in M.
  rewrite (Z.rem_mul_r (norm d v)), (Z.rem_mul_r v) in M by lia.
  pose proof (Z.mod_pos_bound (norm d v) p P1). pose proof (Z.mod_pos_bound v p P1).
  set (a := norm d v / p mod q) in *. set (b := v / p mod q) in *. clearbody a b.
  assert (a = b) by nia. subst. lia.
Qed.

Lemma last_removelast (l : list Z) : l <> [] -> removelast l ++ [last l 0] = l.
Proof. intros. symmetry. apply app_removelast_last. auto. Qed.
Lemma removelast_In (l : list Z) x : In x (removelast l) -> In x l.
Proof.
  destruct l as [|y l]; [intros []|]. intros I.
  rewrite <- (last_removelast (y :: l)) by discriminate. apply in_or_app. auto.
Qed.

(* dividing by alpha, then multiplying *)
Lemma alpha_back fo t xs : t = CU8 \/ t = CU16 -> xs <> [] -> 0 < last xs 0 <= int_max t ->
  Forall (fun x => 0 <= x <= last xs 0) (removelast xs) ->
  exists ys, unpremultiply fo t xs = Ok ys /\ premultiply fo t ys = Ok xs /\ length ys = length xs /\
    Forall (okv t) ys.
Proof.
  intros T NE A C.
  assert (NT : narrow t = true) by (destruct T as [-> | ->]; reflexivity).
  assert (MN : int_min t = 0) by (destruct T as [-> | ->]; reflexivity).
  assert (IT : int_type t <> None) by (destruct T as [-> | ->]; discriminate).
  set (a := last xs 0) in *.
  destruct (mapM_back_ok (fun x => div1 fo t x a) (fun x => mul1 fo t x a) (removelast xs)) as (ys & Y1 & Y2).
  { intros x I. rewrite Forall_forall in C. specialize (C x I).
    destruct (unround (tie_up fo t x a) x a (int_max t) A C) as [Y B].
    unfold div1, mul1. rewrite NT. destruct (Z.eqb_spec a 0); [lia|].
    set (y := round_quot (tie_up fo t x a) (x * int_max t) a) in *. exists y. unfold to_int. rewrite MN.
    split.
    - destruct (Z.leb_spec 0 y), (Z.leb_spec y (int_max t)); cbn [andb]; try lia; reflexivity.
    - rewrite B. destruct (Z.leb_spec 0 x), (Z.leb_spec x (int_max t)); cbn [andb]; try lia; reflexivity. }
  exists (ys ++ [a]). unfold unpremultiply, premultiply. cbv zeta. fold a. rewrite Y1. cbn [bind].
  rewrite last_last, removelast_last, Y2. cbn [bind]. unfold a at 2. rewrite last_removelast by auto.
  split; auto. split; auto. split.
  - rewrite app_length, (mapM_length _ _ _ Y1). cbn [length].
    pose proof (removelast_length xs NE). lia.
  - apply Forall_app. split.
    + eapply mapM_forall; [|exact Y1]. intros x y _ E. cbn beta in E. eapply div1_okv; exact E.
    + constructor; auto. apply int_range_ok; auto. lia.
Qed.

(* parts of buffers *)
Lemma cropped_fits m b x y w h : 0 <= w < 2 ^ 32 -> 0 <= h < 2 ^ 32 ->
  0 <= x -> 0 <= y -> x + w <= fcols (bfmt b) -> y + h <= frows (bfmt b) ->
  fits m b -> fits m (cropped b x y w h).
Proof.
  intros W H X Y XW YH F k r c I. rewrite cropped_addr, cropped_size. apply F.
  rewrite cropped_in in I by auto. unfold in_buffer. lia.
Qed.
Lemma cropped_apart b x y w h : 0 <= w < 2 ^ 32 -> 0 <= h < 2 ^ 32 ->
  0 <= x -> 0 <= y -> x + w <= fcols (bfmt b) -> y + h <= frows (bfmt b) ->
  apart b -> apart (cropped b x y w h).
Proof.
  intros W H X Y XW YH A k r c k' r' c' I I' NE. rewrite !cropped_addr, cropped_size.
  rewrite cropped_in in I, I' by auto. apply A.
  - unfold in_buffer. lia.
  - unfold in_buffer. lia.
  - intros E. apply NE. injection E as -> E1 E2. f_equal; [f_equal|]; lia.
Qed.
Lemma cropped_outside b x y w h k r c i : 0 <= w < 2 ^ 32 -> 0 <= h < 2 ^ 32 ->
  0 <= x -> 0 <= y -> x + w <= fcols (bfmt b) -> y + h <= frows (bfmt b) -> apart b ->
  in_buffer b k r c -> ~ (x <= c < x + w /\ y <= r < y + h) -> 0 <= i < pixel_size b ->
  ~ covers (cropped b x y w h) (addr b k r c + i).
Proof.
  intros W H X Y XW YH A I N Hi (k' & r' & c' & I' & B).
  rewrite cropped_addr, cropped_size in B. rewrite cropped_in in I' by auto.
  destruct (A k r c k' (r' + y) (c' + x) I) as [Q|Q].
  - unfold in_buffer. lia.
  - intros E. injection E as -> E1 E2. apply N. lia.
  - lia.
  - lia.
Qed.

(* contiguous buffers *)
Lemma layout m f o b : buffer_of f o = Ok b -> 0 <= o ->
  0 <= fcols f -> 0 <= frows f -> 0 <= fplanes f ->
  let total := fplanes f * frows f * fcols f * (nchan0 (fpix f) * csize0 (fchan f)) in
  (forall a, covers b a <-> o <= a < o + total) /\ apart b /\
  (o + total <= Z.of_nat (length m) -> fits m b).
Proof.
  intros E O C R P. cbv zeta. apply buffer_of_inv in E as (N & S & ->).
  set (C' := fcols f) in *. set (R' := frows f) in *. set (P' := fplanes f) in *.
  set (Z' := nchan0 (fpix f) * csize0 (fchan f)).
  assert (ZP : 0 < Z') by (unfold Z'; nia).
  assert (AD : forall k r c, addr (mkbuf o f (csize0 (fchan f) * nchan0 (fpix f)) (csize0 (fchan f) * nchan0 (fpix f) * C')
        (csize0 (fchan f) * nchan0 (fpix f) * C' * R')) k r c = o + ((k * R' + r) * C' + c) * Z').
  { intros. unfold addr, Z'. cbn [bdata bps brs bcs]. ring. }
  set (b := mkbuf _ _ _ _ _) in *.
  assert (SZ : pixel_size b = Z') by reflexivity.
  assert (IB : forall k r c, in_buffer b k r c <-> 0 <= k < P' /\ 0 <= r < R' /\ 0 <= c < C') by (intros; reflexivity).
  assert (BND : forall k r c, in_buffer b k r c -> 0 <= (k * R' + r) * C' + c < P' * R' * C').
  { intros k r c I. rewrite IB in I. destruct I as (K1 & K2 & K3).
    assert (B1 : 0 <= k * R') by nia. assert (B2 : (k + 1) * R' <= P' * R') by nia.
    set (q := k * R' + r). assert (B3 : 0 <= q < P' * R') by (unfold q; lia). clearbody q.
    assert (B4 : 0 <= q * C') by nia. assert (B5 : (q + 1) * C' <= P' * R' * C') by nia. lia. }
  split; [|split].
  - intros a. split.
    + intros (k & r & c & I & B). rewrite AD, SZ in B. apply BND in I. nia.
    + intros B. set (j := (a - o) / Z').
      pose proof (Z.div_mod (a - o) Z' ltac:(lia)) as DM. fold j in DM.
      pose proof (Z.mod_pos_bound (a - o) Z' ZP) as MB.
      assert (J0 : 0 <= j) by (apply Z.div_pos; lia).
      assert (J1 : j < P' * R' * C') by (apply Z.div_lt_upper_bound; nia).
      assert (CP : 0 < C') by nia. assert (RP : 0 < R') by nia.
      pose proof (Z.div_mod j C' ltac:(lia)) as D1. pose proof (Z.mod_pos_bound j C' CP) as M1.
      set (q := j / C') in *.
      assert (Q0 : 0 <= q) by (apply Z.div_pos; lia).
      assert (Q1 : q < P' * R') by (apply Z.div_lt_upper_bound; nia).
      pose proof (Z.div_mod q R' ltac:(lia)) as D2. pose proof (Z.mod_pos_bound q R' RP) as M2.
      assert (K0 : 0 <= q / R') by (apply Z.div_pos; lia).
      assert (K1 : q / R' < P') by (apply Z.div_lt_upper_bound; nia).
      exists (q / R'), (q mod R'), (j mod C'). split; [apply IB; auto|].
      rewrite AD, SZ.
      replace (q / R' * R' + q mod R') with q by lia. replace (q * C' + j mod C') with j by lia. lia.
  - intros k r c k' r' c' I I' NE. rewrite !AD, SZ. rewrite IB in I, I'.
    pose proof (index_apart Z' C' R' k r c k' r' c' ZP ltac:(lia) ltac:(lia) ltac:(lia) ltac:(lia) NE). nia.
  - intros L k r c I. rewrite AD, SZ. apply BND in I. nia.
Qed.
