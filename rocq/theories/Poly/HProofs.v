(** Sequences of edits; lines cut to a window; grids; annotations. *)
From Coq Require Import String List Bool ZArith QArith Qround Permutation Lia Lqa.
From Verif Require Import Lib.Base Lib.Lists Lib.Str Poly.Model Poly.Spec Poly.Proofs Poly.EProofs Poly.GProofs Poly.SProofs.
From Verif Require Cut.Model Cut.Spec Cut.Props.
Import ListNotations.
Local Open Scope list_scope.
Local Open Scope Z_scope.

Lemma on_verts_at p f l1 g l2 : p = len l1 -> on_verts p f (l1 ++ g :: l2) = l1 ++ with_verts g (f (verts g)) :: l2.
Proof. intros. unfold on_verts. now apply (change_at (fun g => with_verts g (f (verts g)))). Qed.

Lemma perform_ok e d l : shows d l -> valid e l -> exists d', perform e d = Ok d' /\ shows d' (effect e l).
Proof.
  intros S V. destruct e; cbn [perform effect valid] in *.
  - unfold full. destruct (verts g) as [|x w] eqn:Vg.
    + exists d. split; [now apply append_none|auto].
    + rewrite <- Vg. destruct (append_ok d l [] (verts g) [] (len (verts g)) 0 (shut g) (col g) (lay g)) as (d' & E & S' & _); auto; [rewrite Vg; discriminate|].
      cbn [app] in E. rewrite app_nil_r in E. exists d'. split; auto. now destruct g.
  - destruct V as (l1 & g & l2 & -> & -> & I). destruct (split_range (verts g) v) as (a & b & Ev & La); [lia|].
    destruct (insert_vertex_ok d l1 g l2 a b q _ _ S Ev eq_refl eq_refl) as (d' & E & S' & _). rewrite La in E. exists d'. split; auto. rewrite on_verts_at by auto. unfold before, from. rewrite Ev, firstn_at, skipn_at by auto. exact S'.
  - destruct V as (l1 & g & l2 & -> & -> & I). destruct (split_at (verts g) v) as (a & x & b & Ev & La); [lia|].
    destruct (erase_vertex_ok d l1 g l2 a x b _ _ S Ev eq_refl eq_refl) as (d' & E & S' & _). rewrite La in E. exists d'. split; auto. rewrite on_verts_at by auto. unfold before, from. rewrite Ev, firstn_at by auto.
    change (x :: b) with ([x] ++ b). rewrite (app_assoc a [x] b), skipn_at by (rewrite len_snoc; lia). exact S'.
  - destruct V as (l1 & g & l2 & -> & -> & I). destruct (split_at (verts g) v) as (a & x & b & Ev & La); [lia|].
    destruct (change_vertex_ok d l1 g l2 a x b q _ _ S Ev eq_refl eq_refl) as (d' & E & S' & _). rewrite La in E. exists d'. split; auto. rewrite on_verts_at by auto. unfold before, from. rewrite Ev, firstn_at by auto.
    change (x :: b) with ([x] ++ b). rewrite (app_assoc a [x] b), skipn_at by (rewrite len_snoc; lia). exact S'.
  - destruct (split_at l p V) as (l1 & g & l2 & -> & L). destruct (shift_one_ok d l1 g l2 p sx sy S (eq_sym L)) as (d' & E & S' & _). exists d'. split; auto. rewrite on_verts_at by auto. exact S'.
  - destruct (split_at l p V) as (l1 & g & l2 & -> & L). destruct (reverse_one_ok d l1 g l2 p S (eq_sym L)) as (d' & E & S' & _). exists d'. split; auto. rewrite on_verts_at by auto. exact S'.
  - destruct (split_at l p V) as (l1 & g & l2 & -> & L). destruct (replace_one_ok d l1 g l2 p v S (eq_sym L)) as (d' & E & S' & _). exists d'. split; auto. rewrite on_verts_at by auto. exact S'.
  - destruct (erase_marked_polys_ok d l ms S) as (d' & E & S' & _). eauto.
  - destruct (transform_marked_ok d l ms t S) as (d' & E & S' & _). eauto.
  - destruct (reverse_ok d l S) as (d' & E & S' & _). eauto.
  - destruct (move_all_ok (lt_apply t) d l S) as (d' & E & S' & _). eauto.
  - destruct (extract_marked_ok d l ms S) as (d' & E & S' & _). eauto.
  - destruct (append_and_shift_ok d l ms sx sy S) as (d' & E & S' & _). rewrite E. cbn [bind fst]. eauto.
Qed.
Lemma perform_all_ok es d l : shows d l -> valid_all es l -> exists d', perform_all es d = Ok d' /\ shows d' (effects es l).
Proof.
  revert d l. induction es as [|e es IH]; intros d l S V; [exists d; auto|]. destruct V as [V1 V2]. destruct (perform_ok e d l S V1) as (d1 & E1 & S1).
  cbn [perform_all effects]. rewrite E1. cbn [bind]. now apply IH.
Qed.

(** ** Around the centre of the box *)

Lemma around_center_ok d l b11 b12 b21 b22 : shows d l -> points l <> [] ->
  exists d' b, apply_around_center d b11 b12 b21 b22 = Ok d' /\ smallest_box (points l) b /\
    let c := ((bxl b + bxh b) / 2, (byl b + byh b) / 2)%Q in
    shows d' (map (moved (lt_apply (trans_around b11 b12 b21 b22 c))) l) /\ annos_moved (lt_apply (trans_around b11 b12 b21 b22 c)) d d'.
Proof.
  intros S N. unfold apply_around_center, bd_box_center. assert (T : total d = len (points l)) by apply S. rewrite T.
  destruct (Z.eqb_spec (len (points l)) 0) as [Z0|_]; [now apply len0 in Z0|]. destruct (bd_box_ok d l S N) as (b & E & Sb). rewrite E. cbn [bind].
  destruct (move_all_ok (lt_apply (trans_around b11 b12 b21 b22 ((bxl b + bxh b) / 2, (byl b + byh b) / 2)%Q)) d l S) as (d' & E' & S' & A' & _). eauto 10.
Qed.

(** ** Marked annotations *)

Lemma marked_annos_ok d mark t :
  exists d', transform_marked_annos d mark t = Ok d' /\ annos d' = change (marked mark) (move_anno (lt_apply t)) (annos d) /\
    (forall l, shows d l -> shows d' l) /\ vert_annos d' = vert_annos d /\ poly_annos d' = poly_annos d /\ layer_annos d' = layer_annos d.
Proof.
  unfold transform_marked_annos. set (ch := change (marked mark) (move_anno (lt_apply t))).
  match goal with |- context [for_up 0 ?n ?body ?s0] =>
    destruct (for_list (annos d) (fun a s => exists b, annos d = a ++ b /\ s = ch a ++ b) body n s0) as (s & E & b & Eb & ->) end.
  - reflexivity.
  - exists (annos d). auto.
  - intros a x b s Ea (b' & Eb & ->). rewrite Ea in Eb. apply app_inv_head in Eb. subst b'. unfold ch. rewrite change_snoc. fold ch.
    destruct (marked mark (len a)); cbn [negb].
    + assert (L : len a = len (ch a)) by (symmetry; apply change_len). rewrite vget_at by auto. cbn [bind]. rewrite vput_at by auto. eexists. split; [reflexivity|].
      exists b. split; [now rewrite Ea, <- app_assoc|]. now rewrite <- app_assoc.
    + eexists. split; [reflexivity|]. exists b. split; [now rewrite Ea, <- app_assoc|]. now rewrite <- app_assoc.
  - rewrite E. cbn [bind]. eexists. split; [reflexivity|]. assert (b = []) as -> by (apply (app_inv_head (annos d)); now rewrite app_nil_r).
    rewrite app_nil_r. cbn [set_anno annos vert_annos poly_annos layer_annos]. repeat split; auto; intros; apply H.
Qed.

Lemma dist2_distance q p : (dist2 q p == distance2 q p)%Q.
Proof. unfold dist2, distance2. ring. Qed.
Lemma closest_anno_ok d q : anno_best q (annos d) (find_closest_anno d q).
Proof.
  unfold find_closest_anno. set (f := fun s a => _).
  assert (H : fst (fold_left f (annos d) (0, None)) = len (annos d) /\ anno_best q (annos d) (snd (fold_left f (annos d) (0, None)))).
  { induction (annos d) as [|x l IH] using rev_ind; [split; reflexivity|]. rewrite fold_left_app. cbn [fold_left]. destruct (fold_left f l (0, None)) as [n best]. cbn [fst snd] in IH. destruct IH as [-> B].
    cbn [f fst snd]. rewrite len_snoc. split; [reflexivity|]. pose proof (dist2_distance q (an_x x, an_y x)) as D. destruct best as [[i m]|].
    - destruct B as (a & y & b & -> & -> & M & Ha & Hb). destruct (Qle_bool (dist2 q (an_x x, an_y x)) m) eqn:E; qb.
      + exists (a ++ y :: b), x, []. split; auto. split; auto. split; [exact D|]. split; [|intros z []]. intros z Iz. apply in_app_or in Iz as [Iz|[<-|Iz]]; [apply Ha in Iz|rewrite <- M|apply Hb in Iz]; lra.
      + exists a, y, (b ++ [x]). split; [now rewrite <- app_assoc|]. split; auto. split; auto. split; auto. intros z Iz. apply in_app_or in Iz as [Iz|[<-|[]]]; auto. lra.
    - cbn in B. subst l. exists [], x, []. split; auto. split; auto. split; [exact D|]. split; intros z []. }
  apply H.
Qed.

(** ** Grid *)

Lemma ceil_int k : Qceiling (inject_Z k) = k.
Proof. unfold Qceiling. rewrite <- inject_Z_opp. rewrite Qfloor_Z. lia. Qed.
Lemma grid_count g a b : (0 < g)%Q -> Qceiling ((g * inject_Z a - g * inject_Z b) / g) = a - b.
Proof.
  intros G. rewrite <- (ceil_int (a - b)). apply Qceiling_comp. unfold Zminus. rewrite inject_Z_plus, inject_Z_opp. field. lra.
Qed.
Lemma for_len {A S} (f : Z -> A) n (P : list A -> S -> Prop) body s :
  P [] s -> (forall a s, P a s -> exists s', body (len a) s = Ok s' /\ P (a ++ [f (len a)]) s') ->
  exists s', for_up 0 n body s = Ok s' /\ P (map f (zrange 0 n)) s'.
Proof.
  intros P0 St. destruct (Z.leb_spec n 0) as [N|N].
  - exists s. rewrite zrange_nil by lia. split; auto. unfold for_up. replace (Z.to_nat (n - 0)) with O by lia. reflexivity.
  - destruct (for_list (zrange 0 n) (fun a s => P (map f a) s) body n s) as (s' & E & H); eauto.
    + unfold len. rewrite zrange_length. lia.
    + intros a x b s1 Eb Pa. destruct (St (map f a) s1 Pa) as (s2 & E2 & P2). rewrite len_map in E2, P2. exists s2. split; auto. rewrite map_app. cbn [map].
      assert (x = len a) as ->; auto.
      assert (N2 : nth_error (zrange 0 n) (length a) = Some x) by (rewrite Eb, nth_error_app2, Nat.sub_diag by lia; reflexivity).
      assert (La : len a < n) by (apply (f_equal len) in Eb; rewrite len_app, len_cons in Eb; unfold len at 1 in Eb; rewrite zrange_length in Eb; pose proof (len_pos b); lia).
      pose proof (len_pos a). rewrite (zrange_app 0 (len a) n) in N2 by lia. rewrite (zrange_cons (len a)) in N2 by lia.
      assert (Lz : length (zrange 0 (len a)) = length a) by (rewrite zrange_length; unfold len; lia). rewrite <- Lz, nth_error_app2, Nat.sub_diag in N2 by lia. cbn in N2. congruence.
Qed.
Lemma grid_ok xl yl xh yh g co : (0 < g)%Q ->
  let x0 := Qfloor (xl / g) in let x1 := Qceiling (xh / g) in let y0 := Qfloor (yl / g) in let y1 := Qceiling (yh / g) in
  let at_ k i := (g * inject_Z k + inject_Z i * g)%Q in
  exists d, build_grid xl yl xh yh g co = Ok d /\
    shows d (map (fun i => grid_line true (at_ x0 i) (g * inject_Z y0) (g * inject_Z y1) co) (zrange 0 (x1 - x0 + 1)) ++
             map (fun i => grid_line false (at_ y0 i) (g * inject_Z x0) (g * inject_Z x1) co) (zrange 0 (y1 - y0 + 1))).
Proof.
  intros G. cbv zeta. unfold build_grid. destruct (Qle_bool g 0) eqn:E; qb; [lra|]. cbv zeta. rewrite !grid_count by auto.
  set (x0 := Qfloor (xl / g)). set (x1 := Qceiling (xh / g)). set (y0 := Qfloor (yl / g)). set (y1 := Qceiling (yh / g)).
  match goal with |- context [bind (for_up 0 ?n ?body ?s0) _] =>
    destruct (for_len (fun i => grid_line true (g * inject_Z x0 + inject_Z i * g) (g * inject_Z y0) (g * inject_Z y1) co) n (fun l d => shows d l) body s0) as (d1 & E1 & S1) end.
  - repeat split.
  - intros a s Sa. destruct (rect_append s a (g * inject_Z x0 + inject_Z (len a) * g) (g * inject_Z y0) (g * inject_Z x0 + inject_Z (len a) * g) (g * inject_Z y1) true co [] Sa) as (d' & E' & S' & _). eauto.
  - rewrite E1. cbn [bind]. set (l1 := map _ (zrange 0 (x1 - x0 + 1))) in *. clearbody l1.
    match goal with |- context [for_up 0 ?n ?body ?s0] =>
      destruct (for_len (fun i => grid_line false (g * inject_Z y0 + inject_Z i * g) (g * inject_Z x0) (g * inject_Z x1) co) n (fun l d => shows d (l1 ++ l)) body s0) as (d2 & E2 & S2) end.
    + now rewrite app_nil_r.
    + intros a s Sa. destruct (rect_append s (l1 ++ a) (g * inject_Z x0) (g * inject_Z y0 + inject_Z (len a) * g) (g * inject_Z x1) (g * inject_Z y0 + inject_Z (len a) * g) true co [] Sa) as (d' & E' & S' & _).
      exists d'. split; auto. rewrite app_assoc. exact S'.
    + eauto.
Qed.

(** ** Lines cut to a window *)

Definition nsum (l : list nat) : Z := Z.of_nat (list_sum l).
Lemma cut_line_ok msort (M : forall l, Permutation (msort l) l) l b :
  exists ps, cut_poly_line msort l b = Ok ps /\ forall p q, In p ps -> In q p -> inside_box b q /\ (In q l \/ Cut.Spec.on_border (bxl b) (byl b) (bxh b) (byh b) q).
Proof.
  unfold cut_poly_line. cbv zeta.
  destruct (Cut.Props.cut_poly_exact msort M [length (l ++ rev l)] (l ++ rev l) (bxl b) (byl b) (bxh b) (byh b)) as (pts' & counts' & E & Sm & _ & In1 & _); [apply Nat.add_0_r|].
  rewrite E. cbn [bind fst snd].
  match goal with |- context [for_up 0 ?n ?body ?s0] =>
    destruct (for_list counts' (fun done r => fst r = nsum (removelast done) /\ forall p q, In p (snd r) -> In q p -> In q pts') body n s0) as (r & E2 & _ & H) end.
  - reflexivity.
  - split; [reflexivity|]. intros p q [].
  - intros a x c [st ps] Ec [Hs Hp]. cbn [fst snd] in *.
    assert (St : (if 0 <? len a then n <- vget counts' (len a - 1) ;; Ok (st + Z.of_nat n) else Ok st) = Ok (nsum a)).
    { destruct a as [|y a] using rev_ind.
      - cbn. now rewrite Hs.
      - clear IHa. rewrite removelast_last in Hs. rewrite len_snoc. destruct (Z.ltb_spec 0 (len a + 1)); [|pose proof (len_pos a); lia].
        rewrite <- app_assoc in Ec. cbn [app] in Ec. rewrite Ec. rewrite vget_at by lia. cbn [bind]. rewrite Hs. unfold nsum. rewrite list_sum_app. cbn [list_sum fold_right]. f_equal. lia. }
    rewrite St. cbn [bind]. assert (Gx : vget counts' (len a) = Ok x) by (rewrite Ec; now apply vget_at). rewrite Gx. cbn [bind].
    assert (Bd : (list_sum a + x <= length pts')%nat) by (rewrite <- Sm, Ec, list_sum_app; cbn [list_sum fold_right]; lia).
    unfold vslice. assert (IV : in_vec pts' (nsum a) (Z.of_nat x / 2) = true).
    { unfold in_vec, nsum. assert (0 <= Z.of_nat x / 2 <= Z.of_nat x) by (split; [apply Z.div_pos; lia|apply Z.div_le_upper_bound; lia]).
      apply andb_true_iff. split; [apply andb_true_iff; split|]; apply Z.leb_le; lia. }
    rewrite IV. cbn [bind]. eexists. split; [reflexivity|]. cbn [fst snd]. rewrite removelast_last. split; auto.
    intros p q Ip Iq. apply in_app_or in Ip as [Ip|[<-|[]]]; [eauto|].
    rewrite <- (firstn_skipn (Z.to_nat (nsum a)) pts'); apply in_or_app; right; rewrite <- (firstn_skipn (Z.to_nat (Z.of_nat x / 2)) (skipn _ pts')); apply in_or_app; now left.
  - rewrite E2. cbn [bind]. eexists. split; [reflexivity|]. intros p q Ip Iq. destruct (In1 q (H p q Ip Iq)) as [I1 I2]. split; [exact I1|]. destruct I2 as [I2|I2]; auto. left. apply in_app_or in I2 as [I2|I2]; auto. now apply in_rev.
Qed.
