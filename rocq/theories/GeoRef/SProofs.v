(** Sampled points of a box, and which conversions are defined. *)
From Coq Require Import List Bool ZArith QArith Qround Lia Lqa.
From Verif Require Import Lib.Base GeoRef.Model GeoRef.Spec GeoRef.Proofs.
From Verif Require Line.Model Line.Props.
Import ListNotations.
Local Open Scope Q_scope.

Lemma trunc_int q z : q == inject_Z z -> trunc q = z.
Proof.
  intros E. unfold trunc. destruct (ltq q 0).
  - rewrite (Qceiling_comp _ _ E). apply Qceiling_Z.
  - rewrite (Qfloor_comp _ _ E). apply Qfloor_Z.
Qed.

Lemma near_between n k a b p : (0 <= k < n)%Z -> Line.Props.near n k a b p -> (Z.min a b <= p <= Z.max a b)%Z.
Proof.
  unfold Line.Props.near. intros K N.
  assert (B : (a <= b \/ b < a)%Z) by lia. destruct B as [B|B].
  - assert (0 <= k * (b - a) <= n * (b - a))%Z by nia. split; [rewrite Z.min_l by lia|rewrite Z.max_r by lia]; nia.
  - assert (n * (b - a) <= k * (b - a) <= 0)%Z by nia. split; [rewrite Z.min_r by lia|rewrite Z.max_l by lia]; nia.
Qed.

Lemma bresenham_in x0 y0 x1 y1 : exists l, bresenham x0 y0 x1 y1 = Ok l /\
  forall p, In p l -> exists i j, p = (inject_Z i, inject_Z j) /\ (Z.min x0 x1 <= i <= Z.max x0 x1)%Z /\ (Z.min y0 y1 <= j <= Z.max y0 y1)%Z.
Proof.
  unfold bresenham. destruct (Line.Props.line_walk x0 y0 x1 y1) as (px & E & L & ax & ay & bx & by_ & AB & NR & _).
  unfold Line.Props.span in *. rewrite E. cbn [bind]. eexists. split; [reflexivity|].
  intros p P. apply in_map_iff in P. destruct P as ((i & j) & <- & P). exists i, j. split; [reflexivity|].
  apply In_nth_error in P. destruct P as (k & K). destruct (NR k i j K) as (NX & NY & _).
  assert (KL : (k < length px)%nat) by (apply nth_error_Some; congruence).
  apply near_between in NX; [|lia]. apply near_between in NY; [|lia].
  destruct AB as [(_ & AB)|(_ & AB)]; injection AB as -> -> -> ->; lia.
Qed.

Lemma inject_le a b : (a <= b)%Z -> inject_Z a <= inject_Z b.
Proof. intros H. now rewrite <- Zle_Qle. Qed.

Lemma sample_int_box_spec x y x' y' : (x < x')%Z -> (y < y')%Z -> exists l, sample_int_box (Some (int_box x y x' y')) = Ok l /\
  (forall i j, perimeter x y x' y' i j -> In (inject_Z i, inject_Z j) l) /\
  (forall p, In p l -> exists i j, p = (inject_Z i, inject_Z j) /\ (x <= i <= x')%Z /\ (y <= j <= y')%Z).
Proof.
  intros X Y. unfold sample_int_box, int_box. 
  assert (NE : empty (Some (Box (inject_Z x) (inject_Z y) (inject_Z x') (inject_Z y'))) = false).
  { apply empty_iff. split; cbn [bxl bxh byl byh]; rewrite <- Zlt_Qlt; assumption. }
  rewrite NE. cbn [bxl bxh byl byh]. cbv zeta.
  rewrite (trunc_int (inject_Z x' - inject_Z x) (x' - x)) by (unfold Zminus; rewrite inject_Z_plus, inject_Z_opp; reflexivity).
  rewrite (trunc_int (inject_Z x + inject_Z (x' - x)) x') by (rewrite <- inject_Z_plus; replace (x + (x' - x))%Z with x' by lia; reflexivity).
  rewrite (trunc_int (inject_Z x' - inject_Z (x' - x)) x) by (unfold Qminus; rewrite <- inject_Z_opp, <- inject_Z_plus; replace (x' + - (x' - x))%Z with x by lia; reflexivity).
  rewrite (trunc_int (inject_Z x) x), (trunc_int (inject_Z y) y), (trunc_int (inject_Z x') x'), (trunc_int (inject_Z y') y') by reflexivity.
  rewrite !Qfloor_Z.
  destruct (bresenham_in x y x' y') as (l1 & E1 & H1). destruct (bresenham_in x' y x y') as (l2 & E2 & H2). rewrite E1. cbn [bind]. rewrite E2. cbn [bind].
  eexists. split; [reflexivity|]. split.
  - intros i j (I & J & S). apply in_or_app. left. apply in_or_app. destruct S as [->|[->|[->| ->]]].
    + right. apply in_flat_map. exists j. split; [apply in_zrange; lia|left; reflexivity].
    + right. apply in_flat_map. exists j. split; [apply in_zrange; lia|right; left; reflexivity].
    + left. apply in_flat_map. exists i. split; [apply in_zrange; lia|left; reflexivity].
    + left. apply in_flat_map. exists i. split; [apply in_zrange; lia|right; left; reflexivity].
  - intros p P. apply in_app_or in P. destruct P as [P|P]; [apply in_app_or in P; destruct P as [P|P]|apply in_app_or in P; destruct P as [P|P]].
    + apply in_flat_map in P. destruct P as (i & I & P). apply in_zrange in I.
      destruct P as [<-|[<-|[]]]; [exists i, y|exists i, y']; (split; [reflexivity|lia]).
    + apply in_flat_map in P. destruct P as (j & J & P). apply in_zrange in J.
      destruct P as [<-|[<-|[]]]; [exists x, j|exists x', j]; (split; [reflexivity|lia]).
    + destruct (H1 p P) as (i & j & -> & I & J). exists i, j. split; [reflexivity|lia].
    + destruct (H2 p P) as (i & j & -> & I & J). exists i, j. split; [reflexivity|lia].
Qed.

(* at a fraction of a side *)
Lemma frac_between r lo hi : 0 <= r <= 1 -> lo < hi -> lo <= lo + r * (hi - lo) <= hi.
Proof. intros R L. split; nra. Qed.
Lemma ratio_range i n : (0 <= i <= n)%Z -> (0 < n)%Z -> 0 <= inject_Z i / inject_Z n <= 1.
Proof.
  intros I N. assert (P : 0 < inject_Z n) by (change 0 with (inject_Z 0); rewrite <- Zlt_Qlt; lia).
  split; [apply Qle_shift_div_l|apply Qle_shift_div_r]; auto; rewrite ?Qmult_0_l, ?Qmult_1_l; [change 0 with (inject_Z 0)|]; apply inject_le; lia.
Qed.

Lemma sample_float_box_spec c n : nonempty c -> (0 < n)%Z ->
  (forall p, In p (sample_float_box (Some c) n) -> within c p) /\
  (forall p, In p (corners c) -> exists q, In q (sample_float_box (Some c) n) /\ same p q) /\
  (forall i, (0 <= i <= n)%Z -> forall r, r = inject_Z i / inject_Z n ->
     In (bxl c, byl c + r * (byh c - byl c)) (sample_float_box (Some c) n) /\ In (bxh c, byl c + r * (byh c - byl c)) (sample_float_box (Some c) n) /\
     In (bxl c + r * (bxh c - bxl c), byl c) (sample_float_box (Some c) n) /\ In (bxl c + r * (bxh c - bxl c), byh c) (sample_float_box (Some c) n) /\
     In (bxl c + r * (bxh c - bxl c), byl c + r * (byh c - byl c)) (sample_float_box (Some c) n) /\
     In (bxh c - r * (bxh c - bxl c), byl c + r * (byh c - byl c)) (sample_float_box (Some c) n)).
Proof.
  intros NE N. pose proof NE as (X & Y). apply empty_iff in NE. unfold sample_float_box. rewrite NE. cbv zeta.
  match goal with |- context [flat_map ?F (zrange 0 (n + 1))] => set (f := F) end.
  assert (IN : forall i, (0 <= i <= n)%Z -> forall p, In p (f i) -> In p (flat_map f (zrange 0 (n + 1)))).
  { intros i I p P. apply in_flat_map. exists i. split; [apply in_zrange; lia|exact P]. }
  assert (NZ : ~ inject_Z n == 0). { intros E. assert (0 < inject_Z n) by (change 0 with (inject_Z 0); rewrite <- Zlt_Qlt; lia). lra. }
  split; [|split].
  - intros p P. apply in_flat_map in P. destruct P as (i & I & P). apply in_zrange in I.
    pose proof (ratio_range i n ltac:(lia) N) as R. unfold f in P. cbv zeta in P. set (r := inject_Z i / inject_Z n) in *. clearbody r.
    pose proof (frac_between r _ _ R X). pose proof (frac_between r _ _ R Y). cbn [In] in P.
    destruct P as [<-|[<-|[<-|[<-|[<-|[<-|[]]]]]]]; unfold within; cbn [fst snd]; repeat split; lra.
  - assert (R0 : inject_Z 0 / inject_Z n == 0) by (change (inject_Z 0) with 0; field; exact NZ).
    assert (R1 : inject_Z n / inject_Z n == 1) by (field; exact NZ).
    intros p [<-|[<-|[<-|[<-|[]]]]].
    + eexists. split; [apply (IN 0%Z ltac:(lia)); left; reflexivity|]. split; cbn [fst snd]; [reflexivity|]. rewrite R0. lra.
    + eexists. split; [apply (IN n ltac:(lia)); right; left; reflexivity|]. split; cbn [fst snd]; [reflexivity|]. rewrite R1. lra.
    + eexists. split; [apply (IN n ltac:(lia)); left; reflexivity|]. split; cbn [fst snd]; [reflexivity|]. rewrite R1. lra.
    + eexists. split; [apply (IN 0%Z ltac:(lia)); right; left; reflexivity|]. split; cbn [fst snd]; [reflexivity|]. rewrite R0. lra.
  - intros i I r ->. repeat split; apply (IN i I); unfold f; cbn [In]; tauto.
Qed.

Lemma sample_sides_spec c n : nonempty c -> (0 < n)%Z -> exists l, sample_sides c n = Ok l /\
  (forall i, (0 <= i < n)%Z -> forall x y, x = bxl c + inject_Z i * ((bxh c - bxl c) / inject_Z n) -> y = byl c + inject_Z i * ((byh c - byl c) / inject_Z n) ->
     In (x, byl c) l /\ In (x, byh c) l /\ In (bxl c, y) l /\ In (bxh c, y) l) /\
  (forall p, In p l -> within c p).
Proof.
  intros (X & Y) N. unfold sample_sides. cbv zeta.
  destruct (bresenham_in 0 0 n n) as (l1 & E1 & H1). destruct (bresenham_in n 0 0 n) as (l2 & E2 & H2). rewrite E1. cbn [bind]. rewrite E2. cbn [bind].
  assert (NZ : 0 < inject_Z n) by (change 0 with (inject_Z 0); rewrite <- Zlt_Qlt; lia).
  assert (ST : forall i lo hi, (0 <= i <= n)%Z -> lo < hi -> lo <= inject_Z i * ((hi - lo) / inject_Z n) + lo <= hi).
  { intros i lo hi I L. pose proof (frac_between (inject_Z i / inject_Z n) lo hi (ratio_range i n I N) L) as F.
    assert (EQ : inject_Z i * ((hi - lo) / inject_Z n) + lo == lo + inject_Z i / inject_Z n * (hi - lo)) by (field; lra). rewrite EQ. exact F. }
  eexists. split; [reflexivity|]. split.
  - intros i I x y -> ->. repeat split; apply in_or_app; left; apply in_flat_map; exists i; (split; [apply in_zrange; lia|]); cbn [In]; tauto.
  - intros p P. apply in_app_or in P. destruct P as [P|P].
    + apply in_flat_map in P. destruct P as (i & I & P). apply in_zrange in I.
      pose proof (ST i _ _ ltac:(lia) X) as A. pose proof (ST i _ _ ltac:(lia) Y) as B. cbn [In] in P. unfold within.
      destruct P as [<-|[<-|[<-|[<-|[]]]]]; cbn [fst snd]; repeat split; lra.
    + apply in_app_or in P. destruct P as [P|P]; apply in_map_iff in P; destruct P as (q & <- & Q);
        [destruct (H1 q Q) as (i & j & -> & I & J)|destruct (H2 q Q) as (i & j & -> & I & J)]; unfold within; cbn [fst snd];
        (split; (apply ST; [lia|assumption])).
Qed.

(** ** No undefined behaviour *)

Lemma no_ub_point_to_lonlat g : no_ub (to_lonlat g) -> no_ub (point_to_lonlat g).
Proof. intros H p u. unfold point_to_lonlat. destruct (is_projected g); [apply H|discriminate]. Qed.
Lemma no_ub_pixel_to_lonlat g : no_ub (to_lonlat g) -> no_ub (pixel_to_lonlat g).
Proof. intros H p u. apply no_ub_point_to_lonlat, H. Qed.
Lemma no_ub_lonlat_to_point g : no_ub (to_proj g) -> no_ub (lonlat_to_point g).
Proof. intros H p u. unfold lonlat_to_point. cbv zeta. destruct (is_projected g); [apply H|discriminate]. Qed.
Lemma no_ub_bind {A} (m : res A) (k : A -> res pt) u : (forall v, m <> UB v) -> (forall a, k a <> UB u) -> (x <- m ;; k x) <> UB u.
Proof. intros M K. destruct m as [a|e|v]; cbn [bind]; [apply K|discriminate|]. exfalso. exact (M v eq_refl). Qed.
Lemma no_ub_lonlat_to_pixel g : no_ub (to_proj g) -> no_ub (lonlat_to_pixel g).
Proof. intros H p u. unfold lonlat_to_pixel. apply no_ub_bind; [intros v; apply no_ub_lonlat_to_point, H|discriminate]. Qed.
Lemma no_ub_forward t : total (src t) -> total (dst t) -> no_ub (forward t).
Proof.
  intros (A & _) (_ & B) p u. unfold forward. destruct (skip_map t); [discriminate|].
  apply no_ub_bind; [intros v; now apply no_ub_pixel_to_lonlat|intros; now apply no_ub_lonlat_to_pixel].
Qed.
Lemma no_ub_reverse t : total (src t) -> total (dst t) -> no_ub (reverse t).
Proof.
  intros (_ & A) (B & _) p u. unfold reverse. destruct (skip_map t); [discriminate|].
  apply no_ub_bind; [intros v; now apply no_ub_pixel_to_lonlat|intros; now apply no_ub_lonlat_to_pixel].
Qed.
Lemma no_ub_point_to_point t : total (src t) -> total (dst t) -> no_ub (point_to_point t).
Proof.
  intros (A & _) (_ & B) p u. unfold point_to_point. destruct (skip_map t); [discriminate|].
  apply no_ub_bind; [intros v; now apply no_ub_point_to_lonlat|intros; now apply no_ub_lonlat_to_point].
Qed.
Lemma no_ub_gt_pixel_to_point t : total (src t) -> total (dst t) -> no_ub (gt_pixel_to_point t).
Proof.
  intros (A & _) (_ & B) p u. unfold gt_pixel_to_point. cbv zeta. destruct (skip_map t); [discriminate|].
  apply no_ub_bind; [intros v; now apply no_ub_point_to_lonlat|intros; now apply no_ub_lonlat_to_point].
Qed.
Lemma no_ub_gt_point_to_pixel t : total (src t) -> total (dst t) -> no_ub (gt_point_to_pixel t).
Proof.
  intros (A & _) (_ & B) p u. unfold gt_point_to_pixel. destruct (skip_map t); [discriminate|].
  apply no_ub_bind; [intros v; now apply no_ub_point_to_lonlat|intros; now apply no_ub_lonlat_to_pixel].
Qed.
