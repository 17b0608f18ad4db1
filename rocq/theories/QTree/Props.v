(** Theorems about quad trees of tiles (Mosaic/QuadTreeGenerator.{h,cc}). *)
From Coq Require Import ZArith List Lia Bool QArith Qcanon Ascii String Field.
From Verif Require Import Lib.Base Lib.Str Lib.Img Lib.QSum BBox.Proofs BBox.Box2 Edge.Model MFun.Model Chan.Model Chan.Props Conv.Model Conv.Spec Conv.Proofs Conv.Gauss QTree.Model QTree.Spec QTree.Proofs QTree.Tree.
Import ListNotations.
Local Open Scope Z_scope.

(** ** The number of levels *)

Theorem qtree_levels ts w h : 0 < ts -> 0 <= w -> 0 <= h ->
  exists N, get_tree_levels ts w h = Z.of_nat N + 1 /\ is_height ts w h N.
Proof.
  intros T W H. set (m := Z.max w h). set (k := (m + ts - 1) / ts).
  assert (K : forall a, m <= ts * a <-> k <= a).
  { intros a. unfold k. pose proof (Z.div_mod (m + ts - 1) ts ltac:(lia)). pose proof (Z.mod_pos_bound (m + ts - 1) ts T). split; intros A; nia. }
  pose proof (Z.log2_up_nonneg k) as L0. exists (Z.to_nat (Z.log2_up k)). split.
  - unfold get_tree_levels. cbn zeta. fold m. fold k. destruct (Z.ltb_spec (1 + Z.log2_up k) 1); lia.
  - unfold is_height. fold m. rewrite Z2Nat.id by auto. split.
    + apply K. destruct (Z.le_gt_cases k 1) as [A|A]; [pose proof (Z.pow_pos_nonneg 2 (Z.log2_up k)); lia|]. apply Z.log2_up_spec. lia.
    + intros j A. apply K in A. destruct (Z.le_gt_cases k 1) as [B|B].
      * rewrite Z.log2_up_eqn0 by auto. lia.
      * apply Z.log2_up_le_pow2 in A; lia.
Qed.
Print Assumptions qtree_levels.
Example qtree_levels_ex : get_tree_levels 256 1025 7 = 4 /\ get_tree_levels 256 1024 7 = 3 /\ get_tree_levels 256 1 7 = 1.
Proof. vm_compute. auto. Qed.

(** ** The tiles *)

Lemma height_unique ts w h N M : is_height ts w h N -> is_height ts w h M -> N = M.
Proof. intros [A B] [C D]. pose proof (B _ C). pose proof (D _ A). lia. Qed.

Lemma forall2_in {A B} (R : A -> B -> Prop) l m : Forall2 R l m -> (forall a, In a l -> exists b, In b m /\ R a b) /\ forall b, In b m -> exists a, In a l /\ R a b.
Proof.
  induction 1 as [|a b l m H F [I1 I2]]; cbn [In]; [split; intros _ []|]. split.
  - intros a' [<-|I]; [eauto|]. destruct (I1 a' I) as (b' & J & R'). eauto.
  - intros b' [<-|I]; [eauto|]. destruct (I2 b' I) as (a' & J & R'). eauto.
Qed.

Lemma generate_paths c t source P N : well_set c source -> pyramid t (padded (whole c) (pix source)) P -> is_height (tile_size c) (width c) (height c) N ->
  exists h out, tile_size c = 2 * h /\ 0 < h /\ generate c t source = Ok out /\
    Forall2 (tile_is P (tile_size c) (crop_images c) (cull_images c) (whole c) N) (paths c h N []) out.
Proof.
  intros (T & E & Br & W & H & W0 & H0 & Sp) HP HN. apply Z.even_spec in E as [h E].
  destruct (qtree_levels _ _ _ T W0 H0) as (M & EL & HM). assert (M = N) by (eapply height_unique; eauto). subst M. rewrite E in Br.
  destruct (generate_branch_ok c t source P h N ltac:(lia) E Br W H HP Sp N [] (Z.to_nat (Z.of_nat N + 1) + 1)) as (im & out & G & F & _); [cbn; lia|lia|].
  exists h, out. split; auto. split; [lia|]. split; [|rewrite E; exact F].
  unfold generate. cbn zeta. rewrite EL. replace (Z.of_nat N + 1 - 1) with (Z.of_nat N) by lia.
  change (name_of []) with (@nil ascii) in G. rewrite region_eq in G. cbn [qcol qrow fold_left] in G. rewrite !Z.mul_0_l, !Z.add_0_l in G. unfold side in G.
  rewrite E. rewrite G. reflexivity.
Qed.

(* One tile is written for each address of the tree whose region, and those of all tiles above
   it, meet the part of the image to be cut and pass the check for sparse images, unless all its
   pixels are cut off.  It holds the pixels of its level, and is labelled with its regions. *)
Theorem qtree_tiles c t source P N : well_set c source -> pyramid t (padded (whole c) (pix source)) P ->
  is_height (tile_size c) (width c) (height c) N ->
  exists out, generate c t source = Ok out /\
    (forall a, In a out -> exists q, quadrants q /\ (List.length q <= N)%nat /\
       visible (tile_size c) (S N) (whole c) (sparse_image_check c) q /\
       tile_is P (tile_size c) (crop_images c) (cull_images c) (whole c) N q a) /\
    (forall q, quadrants q -> (List.length q <= N)%nat -> visible (tile_size c) (S N) (whole c) (sparse_image_check c) q ->
       let j := (N - List.length q)%nat in
       shown (crop_images c) (cull_images c) (tile_box (tile_size c) q) (data_box j (bcrop (region (tile_size c) j q) (whole c))) <> None ->
       exists a, In a out /\ tile_is P (tile_size c) (crop_images c) (cull_images c) (whole c) N q a).
Proof.
  intros WS HP HN. destruct (generate_paths c t source P N WS HP HN) as (h & out & E & Hh & G & F). apply forall2_in in F as [F1 F2].
  assert (V : forall q, visible (tile_size c) (S N) (whole c) (sparse_image_check c) q <-> forall a b, q = a ++ b -> here c h (N - List.length a) ([] ++ a) = true).
  { intros q. unfold visible, here. rewrite E. split; intros A a b EQ; specialize (A a b EQ); cbn [app] in *; cbn zeta in *.
    - replace (S N - 1 - List.length a)%nat with (N - List.length a)%nat in A by lia. destruct A as [-> ->]. reflexivity.
    - replace (S N - 1 - List.length a)%nat with (N - List.length a)%nat by lia. apply andb_true_iff in A as [A ->]. apply negb_true_iff in A. auto. }
  exists out. split; auto. split.
  - intros a I. destruct (F2 a I) as (q & Iq & Tq). exists q. apply paths_in in Iq as (s & -> & Q & L & A & _). cbn [app] in *.
    split; auto. split; auto. split; auto. now apply V.
  - intros q Q L Vq j Sh. apply F1. apply paths_in. exists q. split; auto. split; auto. split; auto. split; [now apply V|].
    unfold showable. rewrite <- E. exact Sh.
Qed.
Print Assumptions qtree_tiles.

(* No two tiles have the same name, and each is written after all those below it: no name begins
   with one written before. *)
Theorem qtree_order c t source P N : well_set c source -> pyramid t (padded (whole c) (pix source)) P ->
  is_height (tile_size c) (width c) (height c) N ->
  exists out, generate c t source = Ok out /\ ForallOrdPairs (fun a b => forall s, t_name b <> t_name a ++ s) out.
Proof.
  intros WS HP HN. destruct (generate_paths c t source P N WS HP HN) as (h & out & E & Hh & G & F).
  exists out. split; auto. pose proof (paths_order c h N []) as O.
  assert (Qs : Forall quadrants (paths c h N [])).
  { apply Forall_forall. intros q I. apply paths_in in I as (s & -> & Q & _). exact Q. }
  clear G. revert O Qs. induction F as [|q a l m T F IH]; intros O Qs; [constructor|]. inversion_clear O as [|? ? O1 O2]. inversion_clear Qs as [|? ? Q1 Q2].
  constructor; [|auto]. apply Forall_forall. intros b Ib s EN. apply forall2_in in F as [_ F]. destruct (F b Ib) as (p & Ip & (Tb & _)). destruct T as (Ta & _).
  rewrite Forall_forall in O1, Q2. apply (O1 p Ip). rewrite Ta, Tb in EN. eapply name_prefix; eauto.
Qed.
Print Assumptions qtree_order.

Lemma box_dec (a b : box) : {a = b} + {a <> b}.
Proof. decide equality; apply Z.eq_dec. Qed.

(* Every pixel of the part of the image to be cut is found unchanged in a tile at full
   resolution, even if tiles are cropped, and no other such tile covers it. *)
Theorem qtree_leaves c t source P N x y : well_set c source -> pyramid t (padded (whole c) (pix source)) P ->
  is_height (tile_size c) (width c) (height c) N ->
  inb (whole c) x y -> (forall b, inb b x y -> sparse_image_check c b = true) ->
  exists out a, generate c t source = Ok out /\ In a out /\ List.length (t_name a) = N /\ inb (t_image_bbox a) x y /\
    (let corner := if crop_images c then t_image_bbox a else t_region_bbox a in
     get (t_image a) (x - x0 corner) (y - y0 corner) = Ok (pix source x y)) /\
    forall a', In a' out -> List.length (t_name a') = N -> inb (t_region_bbox a') x y -> t_name a' = t_name a.
Proof.
  intros WS HP HN IB Sp. destruct (qtree_tiles c t source P N WS HP HN) as (out & G & S1 & S2). exists out.
  pose proof WS as (T & E & Br & W & H & W0 & H0 & _). destruct HN as [HN _]. set (ts := tile_size c) in *.
  assert (IW : 0 <= x < width c /\ 0 <= y < height c).
  { unfold whole in IB. destruct (bempty (crop_bbox c)); [|apply inb_crop in IB as [IB _]]; destruct IB; cbn [x0 y0 x1 y1] in *; lia. }
  assert (RX : forall k, 0 <= k < Z.max (width c) (height c) -> 0 <= k / ts < 2 ^ Z.of_nat N /\ k / ts * ts <= k < k / ts * ts + ts).
  { intros k Hk. pose proof (Z.div_mod k ts ltac:(lia)). pose proof (Z.mod_pos_bound k ts T). split; [split; [apply Z.div_pos; lia|apply Z.div_lt_upper_bound; lia]|lia]. }
  destruct (RX x ltac:(lia)) as [X1 X2]. destruct (RX y ltac:(lia)) as [Y1 Y2].
  destruct (address_exists N (x / ts) (y / ts) X1 Y1) as (q & Q & L & QC & QR).
  assert (R0 : forall p, region ts 0 p = Box (qcol p * ts) (qrow p * ts) (qcol p * ts + ts) (qrow p * ts + ts)).
  { intros p. rewrite region_eq. unfold side. cbn [Z.of_nat]. now rewrite Z.pow_0_r, Z.mul_1_r. }
  assert (IR : inb (region ts 0 q) x y) by (rewrite R0, QC, QR; split; cbn [x0 y0 x1 y1]; lia).
  assert (J : (N - List.length q = 0)%nat) by lia.
  assert (Vq : visible ts (S N) (whole c) (sparse_image_check c) q).
  { intros p s EQ. cbn zeta. replace (S N - 1 - List.length p)%nat with (0 + List.length s)%nat by (apply (f_equal (@List.length Z)) in EQ; rewrite app_length in EQ; lia).
    assert (IP : inb (region ts (0 + List.length s) p) x y).
    { apply region_above; auto; [|now rewrite <- EQ]. rewrite EQ in Q. now apply Forall_app in Q. }
    split; [|auto]. eapply inb_nonempty. apply inb_crop. eauto. }
  set (I0 := bcrop (region ts 0 q) (whole c)) in *.
  assert (II : inb I0 x y) by (apply inb_crop; auto).
  assert (DI : data_box 0 I0 = I0) by (unfold data_box; cbn [Z.of_nat]; rewrite Z.pow_0_r, !Z.div_1_r; symmetry; apply box_eta).
  pose proof (inb_nonempty _ _ _ II) as NE.
  assert (SH : shown (crop_images c) (cull_images c) (tile_box ts q) I0 = Some (if crop_images c then I0 else tile_box ts q)).
  { unfold shown. rewrite NE. destruct (crop_images c), (cull_images c); reflexivity. }
  destruct (S2 q Q ltac:(lia) Vq) as (a & Ia & Ta).
  { rewrite J. fold I0. rewrite DI, SH. discriminate. }
  exists a. split; auto. split; auto. pose proof Ta as (TN & TR & b & TS & TH & TD). rewrite J in TS, TH, TD, TR. fold I0 in TS, TD. rewrite DI in TS, TD.
  rewrite SH in TS. injection TS as TS. symmetry in TS.
  assert (TB : t_image_bbox a = I0).
  { destruct TD as [D1 D2]. destruct (crop_images c) eqn:CR; [|destruct (cull_images c) eqn:CU; [|now apply D1; left]].
    all: destruct (box_dec I0 (tile_box ts q)) as [BE|BE]; [apply D1; now right|].
    all: rewrite D2 by auto; cbn [Z.of_nat]; rewrite Z.pow_0_r, !Z.mul_1_r; symmetry; apply box_eta. }
  split; [rewrite TN, name_length; auto|]. split; [now rewrite TB|]. split.
  - assert (CB : (if crop_images c then t_image_bbox a else t_region_bbox a) = b).
    { rewrite TS, TB, TR. destruct (crop_images c); auto. rewrite R0. reflexivity. }
    cbn zeta. rewrite CB. destruct TH as (D1 & D2 & D3). destruct HP as [P0 _].
    assert (Ib : inb b x y).
    { rewrite TS. destruct (crop_images c); auto. rewrite R0 in IR. exact IR. }
    pose proof (inb_nonempty _ _ _ Ib) as NB. destruct (nonempty_size _ NB) as (B1 & B2 & _). destruct Ib as [Ib1 Ib2].
    rewrite get_in by (split; lia). f_equal. rewrite D3 by (split; lia). rewrite P0. unfold padded. destruct IB.
    destruct (Z.leb_spec (x0 (whole c)) x), (Z.ltb_spec x (x1 (whole c))), (Z.leb_spec (y0 (whole c)) y), (Z.ltb_spec y (y1 (whole c))); cbn [andb]; auto; lia.
  - intros a' Ia' L' IA. destruct (S1 a' Ia') as (q' & Q' & Lq & _ & (TN' & TR' & _)). rewrite TN, TN' in *. rewrite name_length in L'. f_equal.
    rewrite TR' in IA. replace (N - List.length q')%nat with 0%nat in IA by lia. rewrite R0 in IA. destruct IA as [IA1 IA2]. cbn [x0 y0 x1 y1] in IA1, IA2.
    apply address_unique; auto; [lia| |]; [rewrite QC|rewrite QR].
    + apply Z.div_unique with (x - qcol q' * ts); lia.
    + apply Z.div_unique with (y - qrow q' * ts); lia.
Qed.
Print Assumptions qtree_leaves.

(** ** The levels *)

(* For channel types of up to 32 bits and for floating point, all the levels are defined. *)
Theorem qtree_pyramid_exists t src : (forall d, t = Some d -> MFun.Model.width d <= 32) -> exists P, pyramid t src P.
Proof.
  intros HT. set (up := fun (p : Z -> Z -> Qc) x y => match cast_clamp_if_int t (mean4 p x y) with Ok v => v | _ => 0%Qc end).
  exists (fun j => nat_rect (fun _ => Z -> Z -> Qc) src (fun _ p => up p) j). split; [reflexivity|]. intros j x y. cbn [nat_rect].
  set (p := nat_rect _ _ _ j). unfold up. destruct t as [d|]; [|reflexivity]. cbn [cast_clamp_if_int].
  destruct (clamp_double_saturates d (this (mean4 p x y)) (HT d eq_refl)) as [-> _]. reflexivity.
Qed.
Print Assumptions qtree_pyramid_exists.

Lemma of_int_nz k : k <> 0 -> of_int k <> 0%Qc.
Proof. intros H E. rewrite <- of_int_0 in E. now apply of_int_inj in E. Qed.

Lemma qsum_halves s f : 0 <= s -> qsum 0 (2 * s) f = (qsum 0 s f + qsum 0 s (fun i => f (i + s)%Z))%Qc.
Proof. intros H. rewrite (qsum_app 0 s (2 * s)) by lia. f_equal. rewrite <- (qsum_shift 0 s s). f_equal; lia. Qed.

(* Without conversions, the pixels of a tile j levels above full resolution are the means of the
   blocks of 2^j by 2^j pixels they stand for. *)
Theorem qtree_levels_are_means src : pyramid None src (block_mean src).
Proof.
  split.
  - intros x y. unfold block_mean. cbn [Z.of_nat]. rewrite Z.pow_0_r, Z.mul_1_r. rewrite (qsum_one 0 1 0) by lia. rewrite (qsum_one 0 1 0) by lia.
    rewrite !Z.mul_1_r, !Z.add_0_r, of_int_1. field. discriminate.
  - intros j x y. cbn [cast_clamp_if_int]. f_equal. unfold mean4, block_mean. rewrite pow2_S. pose proof (pow2_pos j) as S0. set (s := 2 ^ Z.of_nat j) in *.
    rewrite qsum_halves by lia.
    set (W := fun k o : Z => qsum 0 s (fun r => qsum 0 s (fun c => src (k * s + c) (o + r)))).
    assert (HH : forall o, qsum 0 s (fun r => qsum 0 (2 * s) (fun c => src (x * (2 * s) + c) (o + r))) = (W (2 * x)%Z o + W (2 * x + 1)%Z o)%Qc).
    { intros o. unfold W. rewrite <- qsum_plus. apply qsum_ext. intros r _. rewrite qsum_halves by lia. f_equal; apply qsum_ext; intros c _; f_equal; ring. }
    rewrite HH.
    assert (E1 : qsum 0 s (fun i => qsum 0 (2 * s) (fun c => src (x * (2 * s) + c) (y * (2 * s) + (i + s)))) = (W (2 * x)%Z (y * (2 * s) + s)%Z + W (2 * x + 1)%Z (y * (2 * s) + s)%Z)%Qc).
    { rewrite <- HH. apply qsum_ext. intros r _. apply qsum_ext. intros c _. f_equal. ring. }
    rewrite E1.
    replace (y * (2 * s) + s) with ((2 * y + 1) * s) by ring. replace (y * (2 * s)) with (2 * y * s) by ring.
    change (qsum 0 s (fun r => qsum 0 s (fun c => src (2 * x * s + c) (2 * y * s + r)))) with (W (2 * x) (2 * y * s)).
    change (qsum 0 s (fun r => qsum 0 s (fun c => src ((2 * x + 1) * s + c) (2 * y * s + r)))) with (W (2 * x + 1) (2 * y * s)).
    change (qsum 0 s (fun r => qsum 0 s (fun c => src (2 * x * s + c) ((2 * y + 1) * s + r)))) with (W (2 * x) ((2 * y + 1) * s)).
    change (qsum 0 s (fun r => qsum 0 s (fun c => src ((2 * x + 1) * s + c) ((2 * y + 1) * s + r)))) with (W (2 * x + 1) ((2 * y + 1) * s)).
    replace (2 * s * (2 * s)) with (s * s * 4) by ring. rewrite (of_int_mul (s * s) 4).
    assert (N1 : of_int (s * s) <> 0%Qc) by (apply of_int_nz; nia). assert (N4 : of_int 4 <> 0%Qc) by (apply of_int_nz; lia).
    field. auto.
Qed.
Print Assumptions qtree_levels_are_means.

(** *** an example: 5 by 3 pixels, cut into tiles of 2 by 2 *)
Definition ex_image : img Qc := Img 5 3 (fun x y => of_int (x + 10 * y)).
Definition ex_config crop cull : config := Config 2 box_default crop cull 5 3 (default_branch 2) (fun _ => true).
Example qtree_ex : well_set (ex_config false false) ex_image /\ is_height 2 5 3 2 /\
  match generate (ex_config false false) None ex_image with
  | Ok out => map t_name out = map lit ["00"; "01"; "02"; "03"; "0"; "10"; "12"; "1"; ""]%string /\
      option_map (fun a => map (map this) (to_rows (t_image a))) (nth_error out 4) = Some [[11 # 2; 15 # 2]; [41 # 4; 45 # 4]]
  | _ => False
  end.
Proof.
  split; [repeat split; cbn; try lia; auto; discriminate|]. split.
  - split; [cbn; lia|]. intros [|[|k]] H; cbn in H; lia.
  - vm_compute. auto.
Qed.
Example qtree_crop_ex :
  match generate (ex_config true false) (Some U8) ex_image with
  | Ok out => map t_name out = map lit ["00"; "01"; "02"; "03"; "0"; "10"; "12"]%string /\
      option_map t_image_bbox (nth_error out 6) = Some (Box 4 2 5 3)
  | _ => False
  end.
Proof. vm_compute. auto. Qed.

(** ** What goes wrong *)

(* An odd tile size is accepted, but a tile whose children have to be reduced by a factor other
   than two is then not made: with tiles of 3 pixels the third to be copied does not fit
   (ArgumentErr), with tiles of one pixel the size of the reduced child is zero and is divided
   by (undefined). *)
Theorem qtree_any_tile_size_refuted :
  ~ (forall c source, 0 < tile_size c -> (forall n r, branch_func c n r = default_branch (tile_size c) n r) ->
       icols source = QTree.Model.width c -> irows source = height c -> exists out, generate c None source = Ok out) /\
  exists c source, tile_size c = 1 /\ (forall n r, branch_func c n r = default_branch 1 n r) /\ generate c None source = UB DivByZero.
Proof.
  split.
  - intros H. destruct (H (Config 3 box_default false false 4 4 (default_branch 3) (fun _ => true)) (Img 4 4 (fun _ _ => 1%Qc))) as (out & E); try reflexivity.
    vm_compute in E. discriminate.
  - exists (Config 1 box_default false false 2 2 (default_branch 1) (fun _ => true)), (Img 2 2 (fun _ _ => 1%Qc)).
    split; [reflexivity|split; [reflexivity|vm_compute; reflexivity]].
Qed.
Print Assumptions qtree_any_tile_size_refuted.

(* If tiles are cropped or culled, a tile with data is dropped if the data covers less than one
   of its pixels in width or height, and a row or column of pixels partly covered is cut off.
   For an image of 3 by 1 pixels, not even the tile at the root is written. *)
Theorem qtree_crop_keeps_data_refuted :
  ~ (forall c source N q, well_set c source -> crop_images c = true -> is_height (tile_size c) (QTree.Model.width c) (height c) N ->
       quadrants q -> (List.length q <= N)%nat -> visible (tile_size c) (S N) (whole c) (sparse_image_check c) q ->
       exists out, generate c None source = Ok out /\ In (name_of q) (map t_name out)).
Proof.
  intros H. destruct (H (Config 2 box_default true false 3 1 (default_branch 2) (fun _ => true)) (Img 3 1 (fun _ _ => 1%Qc)) 1%nat []) as (out & E & I).
  - repeat split; cbn; try lia; auto; discriminate.
  - reflexivity.
  - split; [cbn; lia|]. intros [|k] A; cbn in A; lia.
  - constructor.
  - cbn; lia.
  - intros p s EQ. symmetry in EQ. apply app_eq_nil in EQ as [-> _]. vm_compute. auto.
  - vm_compute in E. injection E as <-. cbn in I. repeat destruct I as [I|I]; try discriminate. contradiction.
Qed.
Print Assumptions qtree_crop_keeps_data_refuted.

(** ** Paths *)

Definition slash : ascii := "/"%char.
Lemma after_slash_app a b : ~ In slash a -> after_slash (a ++ slash :: b) = a.
Proof.
  induction a as [|x a IH]; intros N; cbn [app after_slash]; [now rewrite Ascii.eqb_refl|].
  destruct (Ascii.eqb_spec x "/"); [exfalso; apply N; left; auto|]. f_equal. apply IH. intros I. apply N. now right.
Qed.
Lemma after_slash_id a : ~ In slash a -> after_slash a = a.
Proof.
  induction a as [|x a IH]; intros N; cbn [after_slash]; auto.
  destruct (Ascii.eqb_spec x "/"); [exfalso; apply N; left; auto|]. f_equal. apply IH. intros I. apply N. now right.
Qed.
Lemma filename p x : ~ In slash x -> after_slash (rev (pappend p x)) = rev x.
Proof.
  intros N. assert (N' : ~ In slash (rev x)) by (now rewrite <- in_rev). unfold pappend. destruct (rev p) as [|c r] eqn:E.
  - now apply after_slash_id.
  - destruct (Ascii.eqb_spec c "/") as [->|Ne].
    + rewrite rev_app_distr, E. now apply after_slash_app.
    + rewrite !rev_app_distr. cbn [rev app]. rewrite <- app_assoc. now apply after_slash_app.
Qed.
Lemma pappend_inj p p' x y : ~ In slash x -> ~ In slash y -> pappend p x = pappend p' y -> x = y.
Proof. intros A B E. apply (f_equal (fun p => after_slash (rev p))) in E. rewrite !filename in E by auto. rewrite <- (rev_involutive x), E. apply rev_involutive. Qed.

(* Tiles of different names are written to different files. *)
Theorem qtree_paths_distinct tree l a b : ~ In slash a -> ~ In slash b ->
  (simple_path tree a = simple_path tree b -> a = b) /\ (tiered_path tree a l = tiered_path tree b l -> a = b).
Proof.
  intros A B. assert (A' : ~ In slash (["r"%char] ++ a)) by (intros [I|I]; [discriminate|auto]). assert (B' : ~ In slash (["r"%char] ++ b)) by (intros [I|I]; [discriminate|auto]).
  split; intros E; apply pappend_inj in E; auto; now apply app_inv_head in E.
Qed.
Print Assumptions qtree_paths_distinct.
Example qtree_paths_ex : tiered_path (lit "a/b") (lit "0132") 3 = lit "a/b/r01/r0132" /\ ~ In slash (name_of [0; 1; 3; 2]) /\
  named_tiered_path (lit "a/b.kml") (lit "0132") 3 = lit "a/b.kml/013/0132" /\ named_tiered_path (lit "a/b.kml") [] 3 = lit "a/b.kml/b".
Proof. split; [reflexivity|]. split; [cbn; intuition discriminate|]. split; reflexivity. Qed.

Lemma after_slash_no p : ~ In slash (after_slash p).
Proof. induction p as [|c p IH]; cbn [after_slash]; [tauto|]. destruct (Ascii.eqb_spec c "/"); [tauto|]. intros [I|I]; auto. Qed.
Lemma drop_extension_in p x : In x (drop_extension p) -> In x p.
Proof. induction p as [|c p IH]; cbn [drop_extension]; [tauto|]. destruct (Ascii.eqb c "."); cbn [In]; tauto. Qed.
Lemma stem_no_slash p : ~ In slash (stem p).
Proof.
  unfold stem. rewrite <- in_rev. intros I. apply (after_slash_no (rev p)). destruct (existsb _ _); auto. now apply drop_extension_in.
Qed.

(* With names after the tree, the root is the only one that can share its file with another. *)
Theorem qtree_named_paths tree l a b : ~ In slash a -> ~ In slash b -> named_tiered_path tree a l = named_tiered_path tree b l ->
  a = b \/ (a = [] /\ b = stem tree) \/ (b = [] /\ a = stem tree).
Proof.
  intros A B E. pose proof (stem_no_slash tree). unfold named_tiered_path in E.
  destruct a as [|x a], b as [|y b]; auto; apply pappend_inj in E; auto.
Qed.
Print Assumptions qtree_named_paths.

(* And it does: in a tree called "0" or "0.kml", the root and the tile "0" are written to the
   same file, the tile first. *)
Theorem qtree_named_paths_distinct_refuted :
  ~ (forall tree l p q, quadrants p -> quadrants q -> named_tiered_path tree (name_of p) l = named_tiered_path tree (name_of q) l -> p = q).
Proof.
  intros H. specialize (H (lit "0.kml") 3%nat [] [0]). discriminate H; [constructor|repeat constructor; lia|reflexivity].
Qed.
Print Assumptions qtree_named_paths_distinct_refuted.
