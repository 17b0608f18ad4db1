(* What a conversion between image buffers should do, stated pixel by pixel. *)
From Coq Require Import ZArith List Bool.
From Verif Require Import Lib.Base IBuf.Model.
Import ListNotations.
Local Open Scope Z_scope.

(* The byte at address a. *)
Definition byte (m : list Z) (a : Z) : Z := nth (Z.to_nat a) m 0.
Definition bytes_ok (m : list Z) : Prop := Forall (fun b => 0 <= b < 256) m.

(* The n-byte little-endian number at address a. *)
Fixpoint number (m : list Z) (a : Z) (n : nat) : Z :=
  match n with O => 0 | S n' => byte m a + 256 * number m (a + 1) n' end.

(* The value of a channel of type t at address a: two's complement for the
   signed integer types, the number itself (or the bit pattern) for the
   others. *)
Definition value (t : ctype) (m : list Z) (a : Z) : Z :=
  let v := number m a (Z.to_nat (csize0 t)) in
  match t with
  | CI8 => if v <? 2 ^ 7 then v else v - 2 ^ 8
  | CI16 => if v <? 2 ^ 15 then v else v - 2 ^ 16
  | CI32 => if v <? 2 ^ 31 then v else v - 2 ^ 32
  | CI64 => if v <? 2 ^ 63 then v else v - 2 ^ 64
  | _ => v
  end.

(* Address and channels of the pixel in column c, row r, plane k. *)
Definition addr (b : buffer) (k r c : Z) : Z :=
  bdata b + k * bps b + r * brs b + c * bcs b.
Definition pixel_at (m : list Z) (b : buffer) (k r c : Z) : list Z :=
  let t := fchan (bfmt b) in
  map (fun i => value t m (addr b k r c + i * csize0 t)) (zrange 0 (nchan0 (fpix (bfmt b)))).

Definition in_buffer (b : buffer) (k r c : Z) : Prop :=
  0 <= k < fplanes (bfmt b) /\ 0 <= r < frows (bfmt b) /\ 0 <= c < fcols (bfmt b).
Definition pixel_size (b : buffer) : Z := nchan0 (fpix (bfmt b)) * csize0 (fchan (bfmt b)).

(* The buffer describes part of the memory m. *)
Definition fits (m : list Z) (b : buffer) : Prop :=
  forall k r c, in_buffer b k r c ->
    0 <= addr b k r c /\ addr b k r c + pixel_size b <= Z.of_nat (length m).
(* Its pixels do not overlap. *)
Definition apart (b : buffer) : Prop :=
  forall k r c k' r' c', in_buffer b k r c -> in_buffer b k' r' c' ->
    (k, r, c) <> (k', r', c') ->
    addr b k r c + pixel_size b <= addr b k' r' c' \/
    addr b k' r' c' + pixel_size b <= addr b k r c.
(* Address a belongs to one of its pixels. *)
Definition covers (b : buffer) (a : Z) : Prop :=
  exists k r c, in_buffer b k r c /\ addr b k r c <= a < addr b k r c + pixel_size b.

(* Pairs of pixel formats converted pixel by pixel. *)
Inductive colour : pformat -> Prop :=
| col_gray : colour PGray | col_graya : colour PGrayA
| col_rgb : colour PRGB | col_rgba : colour PRGBA | col_xyz : colour PXYZ.
Inductive twin : pformat -> pformat -> Prop :=
| tw_scalarm : twin PScalarM PGrayA
| tw_graym : twin PGrayM PGrayA
| tw_rgbm : twin PRGBM PRGBA
| tw_1 : twin (PGeneric 1) PGray
| tw_2 : twin (PGeneric 2) PGrayA
| tw_3 : twin (PGeneric 3) PRGB
| tw_3x : twin (PGeneric 3) PXYZ
| tw_4 : twin (PGeneric 4) PRGBA.
Inductive compatible (d s : pformat) : Prop :=
| comp_same : d = s -> compatible d s
| comp_colour : colour d -> colour s -> compatible d s
| comp_twin : twin d s \/ twin s d -> compatible d s.

(* The number of channels of a format: colours, one for an alpha channel and
   one for a mask. *)
Inductive with_alpha : pformat -> pformat -> Prop :=
| wa_gray : with_alpha PGray PGrayA | wa_rgb : with_alpha PRGB PRGBA.
Inductive with_mask : pformat -> pformat -> Prop :=
| wm_scalar : with_mask PScalar PScalarM | wm_gray : with_mask PGray PGrayM
| wm_graya : with_mask PGrayA PGrayAM | wm_rgb : with_mask PRGB PRGBM
| wm_rgba : with_mask PRGBA PRGBAM | wm_xyz : with_mask PXYZ PXYZM | wm_lab : with_mask PLab PLabM.
Inductive channels : pformat -> Z -> Prop :=
| ch_scalar : channels PScalar 1 | ch_gray : channels PGray 1
| ch_rgb : channels PRGB 3 | ch_xyz : channels PXYZ 3 | ch_lab : channels PLab 3
| ch_alpha f g n : channels f n -> with_alpha f g -> channels g (n + 1)
| ch_mask f g n : channels f n -> with_mask f g -> channels g (n + 1)
| ch_generic n : 1 <= n <= 13 -> channels (PGeneric n) n.

(* The ten channel types that are converted. *)
Inductive numeric : ctype -> Prop :=
| n_i8 : numeric CI8 | n_u8 : numeric CU8 | n_i16 : numeric CI16 | n_u16 : numeric CU16
| n_i32 : numeric CI32 | n_u32 : numeric CU32 | n_i64 : numeric CI64 | n_u64 : numeric CU64
| n_f32 : numeric CF32 | n_f64 : numeric CF64.
Definition integral (t : ctype) : Prop := numeric t /\ t <> CF32 /\ t <> CF64.

Definition same_size (d s : format) : Prop := fcols d = fcols s /\ frows d = frows s.

(* What the caller must ensure about two buffers converted pixel by pixel. *)
Record direct (dm : list Z) (dst : buffer) (sm : list Z) (src : buffer) : Prop := {
  di_pix : compatible (fpix (bfmt dst)) (fpix (bfmt src));
  di_known : 0 < nchan0 (fpix (bfmt src));
  di_dst : numeric (fchan (bfmt dst));
  di_src : numeric (fchan (bfmt src));
  di_size : same_size (bfmt dst) (bfmt src);
  di_planes : fplanes (bfmt dst) = fplanes (bfmt src);
  di_sm : bytes_ok sm;
  di_dm : bytes_ok dm;
  di_fs : fits sm src;
  di_fd : fits dm dst;
  di_ap : apart dst }.

(* A multi-plane buffer of scalars a and a one-plane buffer b with as many
   channels as a has planes. *)
Definition planar (a b : format) : Prop :=
  fpix a = PScalar /\ fplanes b = 1 /\ fplanes a = nchan0 (fpix b) /\ 0 < nchan0 (fpix b).

(* Range of an integral channel type of n bytes. *)
Definition in_range (t : ctype) (v : Z) : Prop :=
  match t with
  | CI8 | CI16 | CI32 | CI64 => - 2 ^ (8 * csize0 t - 1) <= v < 2 ^ (8 * csize0 t - 1)
  | _ => 0 <= v < 2 ^ (8 * csize0 t)
  end.

(* q is an integer nearest to n/d. *)
Definition nearest (q n d : Z) : Prop := Z.abs (2 * (q * d - n)) <= Z.abs d.

(* The library never throws from floating-point arithmetic. *)
Definition quiet (fo : fops) : Prop :=
  forall e, (forall s d r v, f_conv fo s d r v <> Throw e) /\
            (forall t v a, f_mul fo t v a <> Throw e) /\
            (forall t v a, f_div fo t v a <> Throw e).
Definition throws {A} (r : res A) : Prop := exists e, r = Throw e.

Section S.
Variable fo : fops.

(* Channels of a destination pixel with n channels, from those of the source
   pixel; cv converts one channel, mean averages three, top is opaque. *)
Definition recolor (cv : Z -> res Z) (mean : list Z -> res Z) (top : Z)
    (xs : list Z) (n : Z) : res (list Z) :=
  if Z.of_nat (length xs) =? n then mapM cv xs
  else match xs, n with
  | [g], 2 => g' <- cv g ;; Ok [g'; top]
  | [g], 3 => g' <- cv g ;; Ok [g'; g'; g']
  | [g], 4 => g' <- cv g ;; Ok [g'; g'; g'; top]
  | [g; a], 1 => g' <- cv g ;; Ok [g']
  | [g; a], 3 => g' <- cv g ;; Ok [g'; g'; g']
  | [g; a], 4 => g' <- cv g ;; a' <- cv a ;; Ok [g'; g'; g'; a']
  | [r; g; b], 1 => l <- mapM cv [r; g; b] ;; m <- mean l ;; Ok [m]
  | [r; g; b], 2 => l <- mapM cv [r; g; b] ;; m <- mean l ;; Ok [m; top]
  | [r; g; b], 4 => l <- mapM cv [r; g; b] ;; Ok (l ++ [top])
  | [r; g; b; a], 1 => l <- mapM cv [r; g; b] ;; m <- mean l ;; Ok [m]
  | [r; g; b; a], 2 => l <- mapM cv [r; g; b] ;; m <- mean l ;; a' <- cv a ;; Ok [m; a']
  | [r; g; b; a], 3 => mapM cv [r; g; b]
  | _, _ => UB BadIter
  end.

Definition has_alpha (f : pformat) : bool :=
  match f with PGrayA | PRGBA => true | _ => false end.

(* The pixel written for the source pixel xs: colours are multiplied by the
   alpha value of the source pixel where it goes from a format keeping them
   apart to one that does not, and divided by it the other way. *)
Definition converted (d s : format) (rescale : bool) (xs : list Z) : res (list Z) :=
  let cv := conv fo (fchan s) (fchan d) rescale in
  let recolored := fun xs => recolor cv (average fo (fchan d)) (set_max (fchan d)) xs (nchan0 (fpix d)) in
  if has_alpha (fpix s) then
    if fpre s then
      if fpre d then recolored xs
      else ys <- unpremultiply fo (fchan s) xs ;; recolored ys
    else if has_alpha (fpix d) then
      if fpre d then ys <- recolored xs ;; premultiply fo (fchan d) ys
      else recolored xs
    else ys <- premultiply fo (fchan s) xs ;; recolored ys
  else recolored xs.

(* The pairs of formats for which the code tests the source format, not the
   destination format, for an alpha channel, or where it makes no difference. *)
Definition alpha_tested (d s : format) : Prop :=
  (fpre s = fpre d /\
     (fpre s = true \/ has_alpha (fpix s) = false \/ has_alpha (fpix d) = true)) \/
  fpix s = PGrayA \/
  (fpix s = PRGBA <-> fpix d = PRGBA).
End S.
