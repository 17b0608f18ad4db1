(** Editing: each operation on the arrays is the one on the list of polygons. *)
From Coq Require Import String List Bool ZArith QArith Qround Lia Lqa.
From Verif Require Import Lib.Base Lib.Lists Lib.Str Poly.Model Poly.Spec Poly.Proofs.
Import ListNotations.
Local Open Scope list_scope.
Local Open Scope Z_scope.

(** ** Lists with indices *)

Lemma indexed_snoc {A} (l : list A) x : indexed (l ++ [x]) = indexed l ++ [(len l, x)].
Proof.
  unfold indexed. rewrite len_snoc. rewrite (zrange_app 0 (len l) (len l + 1)) by (pose proof (len_pos l); lia).
  rewrite (zrange_cons (len l)), (zrange_nil (len l + 1)) by lia. generalize (zrange_length 0 (len l)). unfold len at 2. replace (Z.to_nat (Z.of_nat (length l) - 0)) with (length l) by lia.
  generalize (zrange 0 (len l)). generalize (len l). clear. induction l as [|a l IH]; intros z [|y m] L; try discriminate; [reflexivity|].
  cbn [app combine]. f_equal. apply IH. now injection L.
Qed.
Lemma keep_snoc {A} t (l : list A) x : keep t (l ++ [x]) = keep t l ++ (if t (len l) then [x] else []).
Proof. unfold keep. rewrite indexed_snoc, filter_last, map_app. cbn [fst]. now destruct (t (len l)). Qed.
Lemma change_snoc {A} t f (l : list A) x : change t f (l ++ [x]) = change t f l ++ [if t (len l) then f x else x].
Proof. unfold change. rewrite indexed_snoc, map_app. reflexivity. Qed.
Lemma change_nil {A} t (f : A -> A) : change t f [] = [].
Proof. reflexivity. Qed.
Lemma change_len {A} t f (l : list A) : len (change t f l) = len l.
Proof. unfold change. rewrite len_map. unfold indexed, len. rewrite combine_length, zrange_length. lia. Qed.
Lemma change_ext {A} t u f (l : list A) : (forall i, 0 <= i < len l -> t i = u i) -> change t f l = change u f l.
Proof.
  induction l as [|x l IH] using rev_ind; intros H; [reflexivity|]. rewrite !change_snoc. rewrite len_snoc in H. pose proof (len_pos l).
  rewrite IH by (intros; apply H; lia). now rewrite H by lia.
Qed.
Lemma change_none {A} t f (l : list A) : (forall i, 0 <= i < len l -> t i = false) -> change t f l = l.
Proof.
  induction l as [|x l IH] using rev_ind; intros H; [reflexivity|]. rewrite change_snoc. rewrite len_snoc in H. pose proof (len_pos l).
  rewrite IH by (intros; apply H; lia). now rewrite H by lia.
Qed.
Lemma change_two {A} t u f (l : list A) : (forall i, t i && u i = false) -> change t f (change u f l) = change (fun i => u i || t i) f l.
Proof.
  intros D. induction l as [|x l IH] using rev_ind; [reflexivity|]. rewrite !change_snoc, IH, change_len. specialize (D (len l)).
  destruct (t (len l)), (u (len l)); try discriminate; reflexivity.
Qed.
Lemma change_at {A} f (l1 : list A) x l2 p : p = len l1 -> change (Z.eqb p) f (l1 ++ x :: l2) = l1 ++ f x :: l2.
Proof.
  intros ->. induction l2 as [|y l2 IH] using rev_ind.
  - rewrite change_snoc, Z.eqb_refl, change_none; [reflexivity|]. intros i I. apply Z.eqb_neq. lia.
  - change (l1 ++ x :: l2 ++ [y]) with (l1 ++ (x :: l2) ++ [y]). rewrite app_assoc, change_snoc, IH. rewrite len_app, len_cons.
    destruct (Z.eqb_spec (len l1) (len l1 + (len l2 + 1))); [pose proof (len_pos l2); lia|]. now rewrite <- app_assoc.
Qed.

Lemma points_moved f l : points (map (moved f) l) = map f (points l).
Proof. induction l; [reflexivity|]. unfold points in *. cbn [map flat_map]. rewrite IHl, map_app. reflexivity. Qed.

Lemma map_ext_len (l m : list polygon) : map (fun g => len (verts g)) l = map (fun g => len (verts g)) m -> len (points l) = len (points m).
Proof.
  revert m. induction l; intros [|b m] E; try discriminate; [reflexivity|]. injection E as E1 E2. unfold points in *. cbn [flat_map]. rewrite !len_app. rewrite (IHl m E2). lia.
Qed.

(** Polygons with the same numbers of vertices and marks: only the coordinates differ. *)
Definition alike (l m : list polygon) : Prop :=
  map (fun g => len (verts g)) m = map (fun g => len (verts g)) l /\ map shut m = map shut l /\ map col m = map col l /\ map lay m = map lay l.
Lemma alike_len l m : alike l m -> len m = len l.
Proof. intros [A _]. apply (f_equal len) in A. now rewrite !len_map in A. Qed.
Lemma alike_points l m : alike l m -> len (points m) = len (points l).
Proof. intros [A _]. now apply map_ext_len. Qed.
Lemma alike_app a b a' b' : alike a a' -> alike b b' -> alike (a ++ b) (a' ++ b').
Proof. intros (A & B & C & D) (A' & B' & C' & D'). unfold alike. rewrite !map_app. repeat split; congruence. Qed.
Lemma alike_refl a : alike a a.
Proof. repeat split. Qed.
Lemma alike_one g v : len v = len (verts g) -> alike [g] [with_verts g v].
Proof. intros H. unfold alike. cbn. rewrite H. auto. Qed.
Lemma alike_change t f l : (forall v, len (f v) = len v) -> alike l (change t (fun g => with_verts g (f (verts g))) l).
Proof.
  intros F. induction l as [|x l IH] using rev_ind; [apply alike_refl|]. rewrite change_snoc. apply alike_app; auto.
  destruct (t (len l)); [apply alike_one, F|apply alike_refl].
Qed.

Lemma shows_alike d l m r : shows d l -> alike l m -> r = (map fst (points m), map snd (points m)) -> shows (set_pts d r) m.
Proof.
  intros S K ->. pose proof (alike_len _ _ K) as K1. pose proof (alike_points _ _ K) as K2. destruct K as (A' & B' & C' & D'). shw S.
  unfold shows. cbn [set_pts fst snd xv yv num_verts num_polys total closed colors layers]. rewrite A', B', C', D', K1, K2. auto 10.
Qed.
Lemma shows_anno d l t a : shows d l -> shows (set_anno d t a) l.
Proof. intros S. exact S. Qed.
Lemma shows_annos d l f : shows d l -> shows (move_annos f d) l.
Proof. intros S. exact S. Qed.

(** ** All vertices *)

Lemma move_all_ok f d l : shows d l ->
  exists d', move_all f d = Ok d' /\ shows d' (map (moved f) l) /\ annos_moved f d d' /\ cloud d' = cloud d.
Proof.
  intros S. unfold move_all. pose proof S as S'. shw S'. rewrite A, B.
  pose proof (map_pts_ok f [] (points l) [] 0 (Z.of_nat (length (map fst (points l)))) eq_refl) as M. cbn [app] in M. rewrite !app_nil_r in M.
  rewrite M by (unfold len; now rewrite map_length). cbn [bind]. eexists. split; [reflexivity|]. split.
  - apply shows_annos. apply (shows_alike d l); auto; [|now rewrite points_moved].
    clear. unfold alike. rewrite !map_map. repeat split; apply map_ext; intros; cbn; now rewrite ?len_map.
  - split; [|reflexivity]. repeat split.
Qed.

(** ** One polygon *)

Definition no_vert_annos (d e : dpoly) : Prop :=
  annos e = annos d /\ vert_annos e = [] /\ poly_annos e = poly_annos d /\ layer_annos e = layer_annos d /\ cloud e = cloud d.

Lemma pts_mid d l1 g l2 : shows d (l1 ++ g :: l2) -> (xv d, yv d) = (map fst (points l1 ++ verts g ++ points l2), map snd (points l1 ++ verts g ++ points l2)).
Proof. intros (A & B & _). now rewrite A, B, points_mid. Qed.
Lemma alike_mid l1 g l2 v : len v = len (verts g) -> alike (l1 ++ g :: l2) (l1 ++ with_verts g v :: l2).
Proof.
  intros H. apply alike_app; [apply alike_refl|]. change (g :: l2) with ([g] ++ l2). change (with_verts g v :: l2) with ([with_verts g v] ++ l2).
  apply alike_app; [now apply alike_one|apply alike_refl].
Qed.

(** A vertex of a polygon found in the arrays. *)
Lemma around d l1 g l2 a x b : shows d (l1 ++ g :: l2) -> verts g = a ++ x :: b ->
  (xv d, yv d) = (map fst ((points l1 ++ a) ++ x :: b ++ points l2), map snd ((points l1 ++ a) ++ x :: b ++ points l2)).
Proof. intros S V. rewrite (pts_mid d l1 g l2 S), V. rewrite <- !app_assoc. reflexivity. Qed.

Lemma change_vertex_ok d l1 g l2 a x b q p v :
  shows d (l1 ++ g :: l2) -> verts g = a ++ x :: b -> p = len l1 -> v = len a ->
  exists d', change_vertex d p v q = Ok d' /\ shows d' (l1 ++ with_verts g (a ++ q :: b) :: l2) /\ no_vert_annos d d'.
Proof.
  intros S V -> ->. unfold change_vertex. rewrite (start_of_mid d l1 g l2) by auto. cbn [bind].
  pose proof (around d l1 g l2 a x b S V) as P. injection P as P1 P2. rewrite P1, P2, (map_app fst (points l1 ++ a)), (map_app snd (points l1 ++ a)). cbn [map].
  vg ltac:(rewrite len_map, len_app; reflexivity). eexists. split; [reflexivity|]. split; [|repeat split].
  apply shows_anno. apply (shows_alike d (l1 ++ g :: l2)); auto.
  - apply alike_mid. rewrite V, !len_app, !len_cons. lia.
  - rewrite points_mid. cbn [with_verts verts]. rewrite !map_app. cbn [map]. rewrite ?map_app, <- ?app_assoc. reflexivity.
Qed.

Lemma insert_vertex_ok d l1 g l2 a b q p v :
  shows d (l1 ++ g :: l2) -> verts g = a ++ b -> p = len l1 -> v = len a ->
  exists d', insert_vertex d p v q = Ok d' /\ shows d' (l1 ++ with_verts g (a ++ q :: b) :: l2) /\ no_vert_annos d d'.
Proof.
  intros S V -> ->. unfold insert_vertex. rewrite (start_of_mid d l1 g l2) by auto. cbn [bind].
  pose proof (pts_mid d l1 g l2 S) as P. injection P as P1 P2. rewrite P1, P2, V.
  rewrite <- app_assoc. rewrite !(app_assoc (points l1)). rewrite (map_app fst (points l1 ++ a)), (map_app snd (points l1 ++ a)). rewrite !vinsert_at by (rewrite len_map, len_app; reflexivity). cbn [bind].
  try rewrite vinsert_at by (rewrite len_map, len_app; reflexivity). cbn [bind]. rewrite (count_mid d l1 g l2) by auto. cbn [bind].
  destruct (shows_mid d l1 g l2 S) as (_ & _ & C & _). rewrite C. vg ltac:(now rewrite len_map). eexists. split; [reflexivity|]. split; [|repeat split].
  apply shows_anno. clear C P1 P2. shw S. unfold shows. cbn [set_counts set_pts fst snd xv yv num_verts num_polys total closed colors layers].
  rewrite D, E, F, G, H. rewrite !points_mid, !len_app, !map_app. cbn [with_verts verts map shut col lay]. rewrite V, !map_app, !len_app, !len_cons. cbn [map].
  rewrite <- !app_assoc. cbn [app]. repeat split; try reflexivity; try lia. f_equal. f_equal. lia.
Qed.

Lemma erase_vertex_ok d l1 g l2 a x b p v :
  shows d (l1 ++ g :: l2) -> verts g = a ++ x :: b -> p = len l1 -> v = len a ->
  exists d', erase_vertex d p v = Ok d' /\ shows d' (l1 ++ with_verts g (a ++ b) :: l2) /\ no_vert_annos d d'.
Proof.
  intros S V -> ->. unfold erase_vertex. rewrite (start_of_mid d l1 g l2) by auto. cbn [bind].
  pose proof (around d l1 g l2 a x b S V) as P. injection P as P1 P2. rewrite P1, P2.
  change (x :: b ++ points l2) with ([x] ++ b ++ points l2). rewrite (map_app fst (points l1 ++ a)), (map_app snd (points l1 ++ a)), (map_app fst [x]), (map_app snd [x]).
  rewrite !verase_at by (rewrite ?len_map, ?len_app; reflexivity). cbn [bind].
  try rewrite verase_at by (rewrite ?len_map, ?len_app; reflexivity). cbn [bind]. rewrite (count_mid d l1 g l2) by auto. cbn [bind].
  destruct (shows_mid d l1 g l2 S) as (_ & _ & C & _). rewrite C. vg ltac:(now rewrite len_map). eexists. split; [reflexivity|]. split; [|repeat split].
  apply shows_anno. clear C P1 P2. shw S. unfold shows. cbn [set_counts set_pts fst snd xv yv num_verts num_polys total closed colors layers].
  rewrite D, E, F, G, H. rewrite !points_mid, !len_app, !map_app. cbn [with_verts verts map shut col lay]. rewrite V, !map_app, !len_app, !len_cons.
  rewrite <- !app_assoc. repeat split; try reflexivity; try lia. f_equal. f_equal. lia.
Qed.

Lemma shift_one_ok d l1 g l2 p sx sy :
  shows d (l1 ++ g :: l2) -> p = len l1 ->
  exists d', shift_one_poly d p sx sy = Ok d' /\ shows d' (l1 ++ moved (shift_by sx sy) g :: l2) /\ no_vert_annos d d'.
Proof.
  intros S ->. unfold shift_one_poly. rewrite (start_of_mid d l1 g l2) by auto. cbn [bind]. rewrite (count_mid d l1 g l2) by auto. cbn [bind].
  rewrite (pts_mid d l1 g l2 S). rewrite map_pts_ok by auto. cbn [bind]. eexists. split; [reflexivity|]. split; [|repeat split].
  apply shows_anno. apply (shows_alike d (l1 ++ g :: l2)); auto; [apply alike_mid; now rewrite len_map|]. now rewrite points_mid.
Qed.

Lemma shift_edge_ok d l1 g l2 a x b p v sx sy :
  shows d (l1 ++ g :: l2) -> verts g = a ++ x :: b -> p = len l1 -> v = len a ->
  let f := shift_by sx sy in
  exists d', shift_edge d p v sx sy = Ok d' /\ no_vert_annos d d' /\
    shows d' (l1 ++ with_verts g
      (match b with
       | y :: b' => a ++ f x :: f y :: b'
       | [] => match a with [] => [f x] | z :: a' => f z :: a' ++ [f x] end
       end) :: l2).
Proof.
  intros S V -> -> f. unfold shift_edge. fold f. rewrite (start_of_mid d l1 g l2) by auto. cbn [bind].
  rewrite (around d l1 g l2 a x b S V). change (x :: b ++ points l2) with ([x] ++ b ++ points l2).
  rewrite map_pts_ok by (rewrite ?len_app; reflexivity). cbn [bind]. rewrite (count_mid d l1 g l2) by auto. cbn [bind].
  assert (LV : len (verts g) = len a + len b + 1) by (rewrite V, len_app, len_cons; lia). rewrite LV.
  pose proof (len_pos a) as La. pose proof (len_pos b) as Lb. cbn [map].
  destruct b as [|y b].
  - cbn [app]. destruct a as [|z a].
    + cbn [bind app]. cbn. eexists. split; [reflexivity|]. split; [repeat split|].
      apply shows_anno. apply (shows_alike d (l1 ++ g :: l2)); auto.
      * apply alike_mid. now rewrite V.
      * rewrite points_mid. cbn [with_verts verts]. rewrite app_nil_r. reflexivity.
    + rewrite len_cons in *. change (len (@nil pt)) with 0 in *. destruct (Z.leb_spec (len a + 1 + 0 + 1) 1); [pose proof (len_pos a); lia|].
      replace ((len a + 1 + 1) mod (len a + 1 + 0 + 1)) with 0 by (rewrite Z.add_0_r; symmetry; apply Z_mod_same; lia).
      match goal with |- context [map_pts f ?s 1 ?r] => assert (M : map_pts f s 1 r = Ok (map fst (points l1 ++ [f z] ++ (a ++ f x :: points l2)), map snd (points l1 ++ [f z] ++ (a ++ f x :: points l2)))) end.
      { rewrite <- app_assoc. apply (map_pts_ok f (points l1) [z] (a ++ f x :: points l2)); [apply Z.add_0_r|reflexivity]. }
      rewrite M. cbn [bind map]. eexists. split; [reflexivity|]. split; [repeat split|].
      apply shows_anno. apply (shows_alike d (l1 ++ g :: l2)); auto.
      * apply alike_mid. rewrite V, len_cons, len_snoc, !len_app, !len_cons. change (len (@nil pt)) with 0. lia.
      * rewrite points_mid. cbn [with_verts verts app]. rewrite <- app_assoc. reflexivity.
  - rewrite len_cons in *. destruct (Z.leb_spec (len a + (len b + 1) + 1) 1); [pose proof (len_pos b); lia|].
    rewrite Z.mod_small by (pose proof (len_pos b); lia). cbn [app].
    match goal with |- context [map_pts f ?s 1 ?r] => assert (M : map_pts f s 1 r = Ok (map fst ((points l1 ++ a ++ [f x]) ++ [f y] ++ b ++ points l2), map snd ((points l1 ++ a ++ [f x]) ++ [f y] ++ b ++ points l2))) end.
    { assert (M0 : len (points l1) + (len a + 1) = len (points l1 ++ a ++ [f x])) by (rewrite !len_app; reflexivity).
      pose proof (map_pts_ok f (points l1 ++ a ++ [f x]) [y] (b ++ points l2) _ 1 M0 eq_refl) as M. cbn [map app] in *. rewrite <- !app_assoc in *. cbn [app] in *. exact M. }
    rewrite M. cbn [bind map]. eexists. split; [reflexivity|]. split; [repeat split|].
    apply shows_anno. apply (shows_alike d (l1 ++ g :: l2)); auto.
    + apply alike_mid. rewrite V, !len_app, !len_cons. lia.
    + rewrite points_mid. cbn [with_verts verts app]. rewrite <- !app_assoc. reflexivity.
Qed.

Lemma reverse_one_ok d l1 g l2 p :
  shows d (l1 ++ g :: l2) -> p = len l1 ->
  exists d', reverse_one_poly d p = Ok d' /\ shows d' (l1 ++ with_verts g (rev (verts g)) :: l2) /\ same_annos d d' /\ cloud d' = cloud d.
Proof.
  intros S ->. unfold reverse_one_poly. rewrite (start_of_mid d l1 g l2) by auto. cbn [bind]. rewrite (count_mid d l1 g l2) by auto. cbn [bind].
  destruct (shows_mid d l1 g l2 S) as (A & B & _). rewrite A, B. rewrite !vreverse_at by now rewrite len_map. cbn [bind].
  try rewrite vreverse_at by now rewrite len_map. cbn [bind]. eexists. split; [reflexivity|]. split; [|repeat split].
  apply (shows_alike d (l1 ++ g :: l2)); auto; [apply alike_mid, len_rev|]. rewrite points_mid, !map_app. cbn [with_verts verts]. rewrite !map_rev. reflexivity.
Qed.

Lemma replace_one_ok d l1 g l2 p v :
  shows d (l1 ++ g :: l2) -> p = len l1 ->
  exists d', replace_one_poly d p v = Ok d' /\ shows d' (l1 ++ with_verts g v :: l2) /\
    annos d' = annos d /\ vert_annos d' = [] /\ poly_annos d' = poly_annos d /\ layer_annos d' = [] /\ cloud d' = cloud d.
Proof.
  intros S ->. unfold replace_one_poly. rewrite (start_of_mid d l1 g l2) by auto. cbn [bind]. rewrite (count_mid d l1 g l2) by auto. cbn [bind].
  destruct (shows_mid d l1 g l2 S) as (A & B & C & _). rewrite A, B, C. rewrite !verase_at by now rewrite len_map. cbn [bind].
  try rewrite verase_at by now rewrite len_map. cbn [bind]. rewrite !vinsert_at by now rewrite len_map. cbn [bind]. try rewrite vinsert_at by now rewrite len_map. cbn [bind].
  vg ltac:(now rewrite len_map). eexists. split; [reflexivity|]. split; [|repeat split].
  apply shows_anno, shows_anno. clear A B C. shw S. unfold shows. cbn [set_counts set_pts fst snd xv yv num_verts num_polys total closed colors layers].
  rewrite D, F, G, H, !points_mid, !map_app. cbn [with_verts verts map shut col lay]. repeat split; try reflexivity.
  - rewrite !len_app, !len_cons. reflexivity.
  - unfold len. rewrite !app_length, !map_length. reflexivity.
Qed.

Lemma extract_one_ok d l1 g l2 p st :
  shows d (l1 ++ g :: l2) -> p = len l1 -> (st = None \/ st = Some (len (points l1))) ->
  exists d', extract_one_poly d p st = Ok d' /\ shows d' (if full g then [g] else []) /\ same_annos reset d' /\ cloud d' = false.
Proof.
  intros S -> St. unfold extract_one_poly.
  replace (match st with Some s => Ok s | None => start_of (num_verts d) (len l1) end) with (Ok (len (points l1)) : res Z)
    by (destruct St as [-> | ->]; [symmetry; apply (start_of_mid d l1 g l2); auto|reflexivity]).
  cbn [bind]. destruct (shows_mid d l1 g l2 S) as (_ & _ & C & D & E & F). rewrite C, D, E, F. vg ltac:(now rewrite len_map).
  assert (R : shows reset []) by (repeat split). destruct (append_polygon_of reset [] d l1 g l2 R S) as (d' & E' & S' & An & Cl). exists d'. auto.
Qed.

(** ** Marked polygons *)

Lemma transform_marked_ok d l mark t : shows d l ->
  exists d', transform_marked_polys d mark t = Ok d' /\ shows d' (change (marked mark) (moved (lt_apply t)) l) /\ no_vert_annos d d'.
Proof.
  intros S. unfold transform_marked_polys. set (ch := change (marked mark) (moved (lt_apply t))).
  assert (AL : forall m, alike m (ch m)) by (intros m; apply (alike_change _ (map (lt_apply t))); intros; apply len_map).
  destruct (each_poly_ok d l (fun l1 r => exists l2, l = l1 ++ l2 /\ r = (map fst (points (ch l1) ++ points l2), map snd (points (ch l1) ++ points l2)))
    (fun p start r => if negb (marked mark p) then Ok r else n <- vget (num_verts d) p ;; map_pts (lt_apply t) start n r) (xv d, yv d)) as (r & E & l2 & El & ->).
  - exact S.
  - exists l. split; auto. destruct S as (A & B & _). now rewrite A, B.
  - intros l1 g l2 s -> (l3 & El & ->). apply app_inv_head in El. subst l3. unfold ch. rewrite change_snoc. fold (ch l1).
    destruct (marked mark (len l1)) eqn:M; cbn [negb].
    + rewrite (count_mid d l1 g l2) by auto. cbn [bind points flat_map]. fold (points l2). fold (points (ch l1)).
      rewrite map_pts_ok by (try reflexivity; symmetry; apply alike_points, AL). eexists. split; [reflexivity|].
      exists l2. split; [now rewrite <- app_assoc|]. rewrite points_app. cbn [points flat_map moved with_verts verts]. rewrite app_nil_r, <- !app_assoc. reflexivity.
    + eexists. split; [reflexivity|]. exists l2. split; [now rewrite <- app_assoc|]. rewrite points_app. cbn [points flat_map]. rewrite app_nil_r, <- !app_assoc. reflexivity.
  - rewrite E. cbn [bind]. eexists. split; [reflexivity|]. split; [|repeat split]. apply shows_anno.
    assert (l2 = []) as -> by (rewrite <- (app_nil_r l) in El at 1; now apply app_inv_head in El).
    apply (shows_alike d l); auto. cbn [points flat_map]. now rewrite app_nil_r.
Qed.

Lemma reverse_ok d l : shows d l ->
  exists d', reverse d = Ok d' /\ shows d' (map (fun g => with_verts g (rev (verts g))) l) /\ same_annos d d' /\ cloud d' = cloud d.
Proof.
  intros S. unfold reverse. set (rv := map (fun g => with_verts g (rev (verts g)))).
  assert (AL : forall m, alike m (rv m)) by (intros m; unfold alike, rv; rewrite !map_map; repeat split; apply map_ext; intros; cbn; now rewrite ?len_rev).
  destruct (each_poly_ok d l (fun l1 r => exists l2, l = l1 ++ l2 /\ r = (map fst (points (rv l1) ++ points l2), map snd (points (rv l1) ++ points l2)))
    (fun p start r => n <- vget (num_verts d) p ;; xs <- vreverse (fst r) start n ;; ys <- vreverse (snd r) start n ;; Ok (xs, ys)) (xv d, yv d)) as (r & E & l2 & El & ->).
  - exact S.
  - exists l. split; auto. destruct S as (A & B & _). now rewrite A, B.
  - intros l1 g l2 s -> (l3 & El & ->). apply app_inv_head in El. subst l3.
    rewrite (count_mid d l1 g l2) by auto. cbn [bind points flat_map fst snd]. fold (points l2). fold (points (rv l1)). rewrite !map_app.
    rewrite !vreverse_at by (rewrite ?len_map; try reflexivity; symmetry; apply alike_points, AL). cbn [bind].
    try rewrite vreverse_at by (rewrite ?len_map; try reflexivity; symmetry; apply alike_points, AL). cbn [bind]. eexists. split; [reflexivity|].
    exists l2. split; [now rewrite <- app_assoc|]. replace (rv (l1 ++ [g])) with (rv l1 ++ [with_verts g (rev (verts g))]) by (symmetry; apply map_app). rewrite points_app. cbn [points flat_map with_verts verts]. rewrite app_nil_r, <- !app_assoc, !map_app, !map_rev. reflexivity.
  - rewrite E. cbn [bind]. eexists. split; [reflexivity|]. split; [|repeat split].
    assert (l2 = []) as -> by (rewrite <- (app_nil_r l) in El at 1; now apply app_inv_head in El).
    apply (shows_alike d l); auto. cbn [points flat_map]. now rewrite app_nil_r.
Qed.

Lemma marked_cons p ms i : marked (p :: ms) i = (p =? i) || marked ms i.
Proof. unfold marked. cbn [existsb]. now rewrite Z.eqb_sym. Qed.
Lemma marked_in ms i : marked ms i = true <-> In i ms.
Proof. unfold marked. rewrite existsb_exists. split; [intros (x & I & E); apply Z.eqb_eq in E; now subst|intros I; exists i; split; auto; apply Z.eqb_refl]. Qed.

Fixpoint many (step : dpoly -> Z -> res dpoly) d ms := match ms with [] => Ok d | p :: ms => d <- step d p ;; many step d ms end.
Lemma many_ok (step : dpoly -> Z -> res dpoly) (f : polygon -> polygon) (R : dpoly -> dpoly -> Prop) :
  (forall d l1 g l2, shows d (l1 ++ g :: l2) -> exists d', step d (len l1) = Ok d' /\ shows d' (l1 ++ f g :: l2) /\ R d d') ->
  (forall d, R d d) -> (forall d e h, R d e -> R e h -> R d h) ->
  forall ms d l, shows d l -> NoDup ms -> (forall i, In i ms -> 0 <= i < len l) ->
  exists d', many step d ms = Ok d' /\ shows d' (change (marked ms) f l) /\ R d d'.
Proof.
  intros St Rr Rt. induction ms as [|p ms IH]; intros d l S N I.
  - exists d. split; [reflexivity|]. split; auto. rewrite change_none; auto.
  - inversion N as [|? ? N1 N2]. subst. destruct (split_at l p) as (l1 & g & l2 & -> & L); [apply I; now left|].
    destruct (St d l1 g l2 S) as (d1 & E1 & S1 & R1). rewrite L in E1. cbn [many]. rewrite E1. cbn [bind].
    destruct (IH d1 (l1 ++ f g :: l2) S1 N2) as (d2 & E2 & S2 & R2).
    { intros i Hi. specialize (I i (or_intror Hi)). rewrite len_app, len_cons in *. lia. }
    exists d2. split; auto. split; [|eauto].
    rewrite <- (change_at f l1 g l2 p) in S2 by auto. rewrite change_two in S2.
    + erewrite change_ext; [exact S2|]. intros i _. apply marked_cons.
    + intros i. destruct (marked ms i) eqn:M, (Z.eqb_spec p i); try reflexivity. subst i. apply marked_in in M. contradiction.
Qed.

Definition maybe_no_vert_annos (d e : dpoly) : Prop :=
  annos e = annos d /\ (vert_annos e = [] \/ vert_annos e = vert_annos d) /\ poly_annos e = poly_annos d /\ layer_annos e = layer_annos d /\ cloud e = cloud d.
Lemma shift_marked_ok d l ms sx sy : shows d l -> NoDup ms -> (forall i, In i ms -> 0 <= i < len l) ->
  exists d', shift_marked_polys d ms sx sy = Ok d' /\ shows d' (change (marked ms) (moved (shift_by sx sy)) l) /\ maybe_no_vert_annos d d'.
Proof.
  intros S N I. destruct (many_ok (fun d p => shift_one_poly d p sx sy) (moved (shift_by sx sy)) maybe_no_vert_annos) with (ms := ms) (d := d) (l := l) as (d' & E & R); auto.
  - intros d0 l1 g l2 S0. destruct (shift_one_ok d0 l1 g l2 (len l1) sx sy S0 eq_refl) as (d' & E & S' & A1 & A2 & A3 & A4 & A5). exists d'. split; auto. split; auto.
    repeat split; auto.
  - intros d0. repeat split; auto.
  - intros d0 e h (A1 & A2 & A3 & A4 & A5) (B1 & B2 & B3 & B4 & B5). repeat split; try congruence. destruct B2 as [-> | ->]; auto.
  - exists d'. split; [|exact R]. rewrite <- E. clear. revert d. induction ms as [|p ms IH]; intros d; cbn [shift_marked_polys many]; [reflexivity|].
    destruct (shift_one_poly d p sx sy); cbn [bind]; auto.
Qed.
Lemma reverse_marked_ok d l ms : shows d l -> NoDup ms -> (forall i, In i ms -> 0 <= i < len l) ->
  exists d', reverse_marked_polys d ms = Ok d' /\ shows d' (change (marked ms) (fun g => with_verts g (rev (verts g))) l) /\ same_annos d d' /\ cloud d' = cloud d.
Proof.
  intros S N I. destruct (many_ok reverse_one_poly (fun g => with_verts g (rev (verts g))) (fun d e => same_annos d e /\ cloud e = cloud d)) with (ms := ms) (d := d) (l := l) as (d' & E & R); auto.
  - intros d0 l1 g l2 S0. apply reverse_one_ok; auto.
  - intros d0. split; [apply same_annos_refl|reflexivity].
  - intros d0 e h (A & A') (B & B'). split; [eapply same_annos_trans; eauto|congruence].
  - exists d'. split; [|exact R]. rewrite <- E. clear. revert d. induction ms as [|p ms IH]; intros d; cbn [reverse_marked_polys many]; [reflexivity|].
    destruct (reverse_one_poly d p); cbn [bind]; auto.
Qed.

(** ** Erasing *)

Fixpoint unmarked {A} (l : list A) (m : list bool) : list A :=
  match l, m with a :: l, b :: m => if (b : bool) then unmarked l m else a :: unmarked l m | _, _ => [] end.
Lemma unmarked_app {A} (a b : list A) m n : length a = length m -> unmarked (a ++ b) (m ++ n) = unmarked a m ++ unmarked b n.
Proof. revert m. induction a as [|x a IH]; intros [|y m] L; try discriminate; [reflexivity|]. cbn [app unmarked]. rewrite IH by now injection L. now destruct y. Qed.
Lemma unmarked_true {A} (a : list A) : unmarked a (repeat true (length a)) = [].
Proof. induction a; cbn [length repeat unmarked]; auto. Qed.
Lemma unmarked_false {A} (a : list A) : unmarked a (repeat false (length a)) = a.
Proof. induction a; cbn [length repeat unmarked]; auto. now f_equal. Qed.

Lemma erase_marked_ok {A} (l : list A) m : length m = length l -> erase_marked l m = Ok (unmarked l m).
Proof.
  intros L. unfold erase_marked.
  destruct (for_list l (fun a s => exists b c m1, l = a ++ b /\ len m1 = len a /\ m1 = firstn (length a) m /\
              fst s = unmarked a m1 ++ c ++ b /\ snd s = len (unmarked a m1) /\ len (unmarked a m1 ++ c) = len a)
    (fun i s => k <- vget m i ;; if (k : bool) then Ok s else v <- vget (fst s) i ;; l' <- vput (fst s) (snd s) v ;; Ok (l', snd s + 1)) (Z.of_nat (length l)) (l, 0)) as (s & E & b & c & m1 & El & Lm & Em & F & G & H).
  - reflexivity.
  - exists l, [], []. repeat split.
  - intros a x b [s k] -> (b' & c & m1 & El & Lm & Em & F & G & H). cbn [fst snd] in *. apply app_inv_head in El. subst b'.
    destruct (nth_error m (length a)) as [y|] eqn:Y; [|apply nth_error_None in Y; rewrite app_length in L; cbn [length] in L; lia].
    assert (Ms : m = m1 ++ y :: skipn (S (length a)) m).
    { rewrite Em. apply nth_error_split in Y as (p & q & -> & Lp). rewrite <- Lp, firstn_app, Nat.sub_diag, firstn_all, firstn_O, app_nil_r.
      change (p ++ y :: q) with (p ++ [y] ++ q) at 2. rewrite app_assoc. replace (S (length p)) with (length (p ++ [y])) by (rewrite app_length; cbn [length]; lia).
      rewrite skipn_app, Nat.sub_diag, skipn_all. reflexivity. }
    assert (V : vget m (len a) = Ok y) by (rewrite Ms; apply vget_at; auto). rewrite V. cbn [bind].
    assert (M1 : firstn (length (a ++ [x])) m = m1 ++ [y]).
    { rewrite app_length. cbn [length]. rewrite Nat.add_1_r. rewrite Ms. assert (LL : length m1 = length a) by (unfold len in Lm; lia).
      rewrite <- LL. change (m1 ++ y :: skipn (S (length m1)) m) with (m1 ++ [y] ++ skipn (S (length m1)) m). rewrite app_assoc.
      replace (S (length m1)) with (length (m1 ++ [y])) at 1 by (rewrite app_length; cbn [length]; lia). rewrite firstn_app, Nat.sub_diag, firstn_all, firstn_O. now rewrite app_nil_r. }
    assert (U : unmarked (a ++ [x]) (m1 ++ [y]) = unmarked a m1 ++ (if y then [] else [x])).
    { rewrite unmarked_app by (unfold len in Lm; lia). now destruct y. }
    destruct y.
    + eexists. split; [reflexivity|]. exists b, (c ++ [x]), (m1 ++ [true]). cbn [fst snd]. rewrite U, app_nil_r, !len_snoc. repeat split; auto.
      * now rewrite <- app_assoc.
      * lia.
      * rewrite F. rewrite <- !app_assoc. reflexivity.
      * rewrite app_assoc, len_snoc. lia.
    + rewrite F. rewrite app_assoc. rewrite vget_at by (auto). cbn [bind]. rewrite <- app_assoc.
      destruct c as [|z c].
      * rewrite app_nil_r in H. cbn [app]. rewrite vput_at by auto. cbn [bind]. eexists. split; [reflexivity|]. exists b, [], (m1 ++ [false]). cbn [fst snd].
        rewrite U, !len_snoc. repeat split; auto; try (now rewrite <- app_assoc); try lia. rewrite app_nil_r, len_snoc. lia.
      * cbn [app]. rewrite vput_at by auto. cbn [bind]. eexists. split; [reflexivity|]. exists b, (c ++ [x]), (m1 ++ [false]). cbn [fst snd].
        rewrite U, !len_snoc. repeat split; auto; try (now rewrite <- app_assoc); try lia.
        -- rewrite <- !app_assoc. cbn [app]. reflexivity.
        -- rewrite !len_app, len_cons in *. change (len (@nil A)) with 0. lia.
  - rewrite E. cbn [bind]. assert (b = []) as -> by (rewrite <- (app_nil_r l) in El at 1; now apply app_inv_head in El).
    rewrite F, G. rewrite app_nil_r, firstn_at by auto. rewrite Em. rewrite <- L, firstn_all. reflexivity.
Qed.

Lemma set_true a n b : for_up 0 (Z.of_nat n) (fun v dm => vput dm (len a + v) true) (a ++ repeat false n ++ b) = Ok (a ++ repeat true n ++ b).
Proof.
  destruct (for_list (repeat false n) (fun m s => exists m', repeat false n = m ++ m' /\ s = a ++ repeat true (length m) ++ m' ++ b)
    (fun v dm => vput dm (len a + v) true) (Z.of_nat n) (a ++ repeat false n ++ b)) as (s & E & m' & Em & ->).
  - unfold len. now rewrite repeat_length.
  - exists (repeat false n). auto.
  - intros m x m' s El (m2 & E2 & ->). rewrite El in E2. apply app_inv_head in E2. subst m2. rewrite app_assoc. cbn [app].
    rewrite vput_at by (rewrite len_app; unfold len at 4; rewrite repeat_length; reflexivity). eexists. split; [reflexivity|]. exists m'.
    split; [now rewrite El, <- app_assoc|]. rewrite app_length. cbn [length]. rewrite repeat_app. cbn [repeat]. rewrite <- !app_assoc. reflexivity.
  - assert (m' = []) as -> by (rewrite <- (app_nil_r (repeat false n)) in Em at 1; now apply app_inv_head in Em).
    rewrite E, repeat_length. reflexivity.
Qed.

Definition iflags (t : Z -> bool) (l : list polygon) : list bool := map (fun e => t (fst e)) (indexed l).
Definition vflags (t : Z -> bool) (l : list polygon) : list bool := flat_map (fun e => repeat (t (fst e)) (length (verts (snd e)))) (indexed l).
Lemma iflags_snoc t l x : iflags t (l ++ [x]) = iflags t l ++ [t (len l)].
Proof. unfold iflags. now rewrite indexed_snoc, map_app. Qed.
Lemma vflags_snoc t l x : vflags t (l ++ [x]) = vflags t l ++ repeat (t (len l)) (length (verts x)).
Proof. unfold vflags. rewrite indexed_snoc, flat_map_app. cbn [flat_map fst snd]. now rewrite app_nil_r. Qed.
Lemma iflags_len t l : length (iflags t l) = length l.
Proof. unfold iflags, indexed, len. rewrite map_length, combine_length, zrange_length. lia. Qed.
Lemma vflags_len t l : length (vflags t l) = length (points l).
Proof.
  induction l as [|x l IH] using rev_ind; [reflexivity|]. rewrite vflags_snoc, points_app, !app_length, IH, repeat_length. cbn [points flat_map]. now rewrite app_nil_r.
Qed.
Lemma unmarked_iflags {B} (f : polygon -> B) t l : unmarked (map f l) (iflags t l) = map f (keep (fun i => negb (t i)) l).
Proof.
  induction l as [|x l IH] using rev_ind; [reflexivity|]. rewrite map_app, iflags_snoc, unmarked_app by now rewrite map_length, iflags_len.
  rewrite IH, keep_snoc, map_app. f_equal. cbn [map unmarked]. now destruct (t (len l)).
Qed.
Lemma unmarked_vflags {B} (f : pt -> B) t l : unmarked (map f (points l)) (vflags t l) = map f (points (keep (fun i => negb (t i)) l)).
Proof.
  induction l as [|x l IH] using rev_ind; [reflexivity|]. rewrite points_app, map_app, vflags_snoc, unmarked_app by now rewrite map_length, vflags_len.
  rewrite IH, keep_snoc, points_app, map_app. f_equal. cbn [points flat_map]. rewrite app_nil_r.
  replace (length (verts x)) with (length (map f (verts x))) by apply map_length.
  destruct (t (len l)); [now rewrite unmarked_true|]. rewrite unmarked_false. cbn [negb points flat_map]. now rewrite app_nil_r.
Qed.

Lemma erase_marked_polys_ok d l ms : shows d l ->
  exists d', erase_marked_polys d ms = Ok d' /\ shows d' (keep (fun i => negb (marked ms i)) l) /\
    annos d' = annos d /\ vert_annos d' = [] /\ poly_annos d' = poly_annos d /\ layer_annos d' = [] /\ cloud d' = cloud d.
Proof.
  intros S. unfold erase_marked_polys. set (t := marked ms).
  destruct (each_poly_ok d l (fun l1 r => exists l2, l = l1 ++ l2 /\ r = (vflags t l1 ++ repeat false (length (points l2)), iflags t l1 ++ repeat false (length l2)))
    (fun p start ms' => if negb (t p) then Ok ms' else im <- vput (snd ms') p true ;; n <- vget (num_verts d) p ;;
       dm <- for_up 0 n (fun v dm => vput dm (start + v) true) (fst ms') ;; Ok (dm, im))
    (repeat false (Z.to_nat (total d)), repeat false (Z.to_nat (num_polys d)))) as (r & E & l2 & El & ->).
  - exact S.
  - exists l. split; auto. shw S. rewrite E, D. unfold len. rewrite !Nat2Z.id. reflexivity.
  - intros l1 g l2 s -> (l3 & El & ->). apply app_inv_head in El. subst l3. cbn [fst snd].
    rewrite vflags_snoc, iflags_snoc.
    replace (repeat false (length (points (g :: l2)))) with (repeat false (length (verts g)) ++ repeat false (length (points l2)))
      by (rewrite <- repeat_app; f_equal; unfold points; cbn [flat_map]; now rewrite app_length).
    cbn [length repeat]. destruct (t (len l1)) eqn:T; cbn [negb].
    + rewrite vput_at by (unfold len; now rewrite iflags_len). cbn [bind]. rewrite (count_mid d l1 g l2) by auto. cbn [bind].
      replace (len (points l1)) with (len (vflags t l1)) by (unfold len; now rewrite vflags_len). unfold len at 1. rewrite set_true. cbn [bind]. eexists. split; [reflexivity|].
      exists l2. split; [now rewrite <- app_assoc|]. rewrite <- !app_assoc. reflexivity.
    + eexists. split; [reflexivity|]. exists l2. split; [now rewrite <- app_assoc|]. rewrite <- !app_assoc. reflexivity.
  - fold t. unfold t in *. rewrite E. cbn [bind fst snd]. assert (l2 = []) as -> by (rewrite <- (app_nil_r l) in El at 1; now apply app_inv_head in El).
    cbn [points flat_map length repeat]. rewrite !app_nil_r. pose proof S as S'. shw S'. rewrite A, B, F, G, H, C.
    rewrite !erase_marked_ok by (rewrite ?map_length, ?iflags_len, ?vflags_len; reflexivity). cbn [bind].
    repeat (rewrite erase_marked_ok by (rewrite ?map_length, ?iflags_len, ?vflags_len; reflexivity); cbn [bind]).
    eexists. split; [reflexivity|]. split; [|repeat split].
    rewrite !unmarked_iflags, !unmarked_vflags. unfold shows. cbn [xv yv num_verts num_polys total closed colors layers]. unfold len. rewrite !map_length. repeat split; reflexivity.
Qed.

(** ** Extracting *)

Lemma starting_ok d l : shows d l ->
  exists ids, starting_indices d = Ok ids /\ len ids = len l + 1 /\ forall a b, l = a ++ b -> vget ids (len a) = Ok (len (points a)).
Proof.
  intros S. unfold starting_indices.
  destruct (for_list l (fun l1 r => fst r = len (points l1) /\ len (snd r) = len l1 + 1 /\ forall a b, l1 = a ++ b -> vget (snd r) (len a) = Ok (len (points a)))
    (fun p r => n <- vget (num_verts d) p ;; Ok (fst r + n, snd r ++ [fst r + n])) (num_polys d) (0, [0])) as (r & E & _ & L & G).
  - apply S.
  - repeat split. intros a b Eab. symmetry in Eab. apply app_eq_nil in Eab as [-> ->]. reflexivity.
  - intros l1 g l2 [s ids] -> (F & L & G). cbn [fst snd] in *. rewrite (count_mid d l1 g l2) by auto. cbn [bind]. eexists. split; [reflexivity|]. cbn [fst snd].
    assert (P : s + len (verts g) = len (points (l1 ++ [g]))) by (rewrite F, points_app, len_app; cbn [points flat_map]; now rewrite app_nil_r).
    split; [exact P|]. split; [rewrite !len_snoc; lia|].
    intros a b Eab. destruct b as [|b0 b] using rev_ind.
    + rewrite app_nil_r in Eab. subst a. rewrite vget_at by (rewrite len_snoc; lia). now rewrite P.
    + clear IHb. rewrite app_assoc in Eab. apply app_inj_tail in Eab as [-> ->]. specialize (G a b eq_refl). unfold vget in *.
      destruct (len a <? 0); [discriminate|]. destruct (nth_error ids (Z.to_nat (len a))) eqn:N; [|discriminate]. rewrite nth_error_app1 by (apply nth_error_Some; congruence).
      now rewrite N.
  - rewrite E. cbn [bind]. eauto.
Qed.

Lemma extract_marked_ok d l ms : shows d l ->
  exists d', extract_marked_polys d ms = Ok d' /\ shows d' (filter full (keep (marked ms) l)) /\ same_annos reset d' /\ cloud d' = false.
Proof.
  intros S. unfold extract_marked_polys. destruct (starting_ok d l S) as (ids & E & _ & G). rewrite E. cbn [bind].
  apply (for_list l (fun l1 d' => shows d' (filter full (keep (marked ms) l1)) /\ same_annos reset d' /\ cloud d' = false)).
  - apply S.
  - split; [repeat split|]. split; [apply same_annos_refl|reflexivity].
  - intros l1 g l2 s El (S1 & An & Cl). rewrite keep_snoc, filter_app. destruct (marked ms (len l1)); cbn [negb].
    + rewrite (G l1 (g :: l2) El). cbn [bind]. subst l. destruct (extract_one_ok d l1 g l2 (len l1) (Some (len (points l1)))) as (q & Eq & Sq & Aq & Cq); auto. rewrite Eq. cbn [bind].
      destruct (append_polygons_ok s _ q _ S1 Sq) as (d' & E' & S' & A1 & A2 & A3 & A4 & A5). exists d'. split; auto. split; [|split].
      * replace (filter full [g]) with (filter full (if full g then [g] else [])); auto. cbn [filter]. destruct (full g) eqn:Fg; cbn [filter]; now rewrite ?Fg.
      * destruct Aq as (B1 & B2 & B3 & B4). destruct An as (C1 & C2 & C3 & C4). unfold same_annos. cbn [reset annos vert_annos poly_annos layer_annos] in *. rewrite A1, A2, A3, A4, C1, C2, C3, C4, B1. auto.
      * congruence.
    + eexists. split; [reflexivity|]. cbn [filter]. rewrite app_nil_r. auto.
Qed.

Lemma filter_full_moved f l : filter full (map (moved f) l) = map (moved f) (filter full l).
Proof.
  induction l as [|g l IH]; [reflexivity|]. cbn [map filter]. assert (full (moved f g) = full g) as -> by (unfold full, moved, with_verts; cbn [verts]; now destruct (verts g)).
  rewrite IH. now destruct (full g).
Qed.
Lemma filter_twice {A} (f : A -> bool) l : filter f (filter f l) = filter f l.
Proof. induction l as [|a l IH]; [reflexivity|]. cbn [filter]. destruct (f a) eqn:F; auto. cbn [filter]. rewrite F. now f_equal. Qed.

Lemma append_and_shift_ok d l ms sx sy : shows d l ->
  let new := map (moved (shift_by sx sy)) (filter full (keep (marked ms) l)) in
  exists d', append_and_shift_marked d ms sx sy = Ok (d', zrange (len l) (len l + len new)) /\ shows d' (l ++ new) /\ same_annos d d' /\ cloud d' = cloud d.
Proof.
  intros S new. unfold append_and_shift_marked. destruct (extract_marked_ok d l ms S) as (q & Eq & Sq & Aq & Cq). rewrite Eq. cbn [bind].
  unfold shift. destruct (move_all_ok (shift_by sx sy) q _ Sq) as (q' & Eq' & Sq' & Aq' & Cq'). rewrite Eq'. cbn [bind].
  destruct (append_polygons_ok d l q' _ S Sq') as (d' & E' & S' & A1 & A2 & A3 & A4 & A5). rewrite E'. cbn [bind].
  rewrite filter_full_moved, filter_twice in S'. fold new in S'. exists d'.
  assert (N : num_polys d = len l) by apply S. assert (N' : num_polys d' = len (l ++ new)) by apply S'. rewrite N, N', len_app. repeat split; auto; try apply S'.
  destruct Aq as (B1 & _). destruct Aq' as (B1' & _). rewrite A1, B1', B1. apply app_nil_r.
Qed.
