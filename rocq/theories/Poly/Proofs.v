(** Vectors, ranges and the loops over polygons. *)
From Coq Require Import String List Bool ZArith QArith Qround Lia Lqa.
From Verif Require Import Lib.Base Lib.Lists Lib.Str Poly.Model Poly.Spec.
Import ListNotations.
Local Open Scope list_scope.
Local Open Scope Z_scope.

Lemma len_app {A} (a b : list A) : len (a ++ b) = len a + len b.
Proof. unfold len. rewrite app_length. lia. Qed.
Lemma len_cons {A} x (a : list A) : len (x :: a) = len a + 1.
Proof. unfold len. cbn [length]. lia. Qed.
Lemma len_nil {A} : len (@nil A) = 0.
Proof. reflexivity. Qed.
Lemma len_snoc {A} (a : list A) x : len (a ++ [x]) = len a + 1.
Proof. unfold len. rewrite app_length. cbn [length]. lia. Qed.
Lemma len_pos {A} (a : list A) : 0 <= len a.
Proof. unfold len. lia. Qed.
Lemma len_map {A B} (f : A -> B) l : len (map f l) = len l.
Proof. unfold len. now rewrite map_length. Qed.
Lemma len_rev {A} (l : list A) : len (rev l) = len l.
Proof. unfold len. now rewrite rev_length. Qed.
Lemma len0 {A} (l : list A) : len l = 0 -> l = [].
Proof. destruct l; auto. rewrite len_cons. pose proof (len_pos l). lia. Qed.
Lemma split_at {A} (l : list A) i : 0 <= i < len l -> exists a x b, l = a ++ x :: b /\ len a = i.
Proof.
  intros I. destruct (nth_error l (Z.to_nat i)) as [x|] eqn:E; [|apply nth_error_None in E; unfold len in I; lia].
  apply nth_error_split in E as (a & b & -> & L). exists a, x, b. split; auto. unfold len. lia.
Qed.
Lemma split_range {A} (l : list A) i : 0 <= i <= len l -> exists a b, l = a ++ b /\ len a = i.
Proof.
  intros I. exists (firstn (Z.to_nat i) l), (skipn (Z.to_nat i) l). split; [now rewrite firstn_skipn|].
  unfold len in *. rewrite firstn_length. lia.
Qed.

Lemma vget_at {A} (a : list A) x b i : i = len a -> vget (a ++ x :: b) i = Ok x.
Proof.
  intros ->. unfold vget, len. destruct (Z.ltb_spec (Z.of_nat (length a)) 0); [lia|].
  rewrite Nat2Z.id, nth_error_app2 by lia. now rewrite Nat.sub_diag.
Qed.
Lemma vput_at {A} (a : list A) x b i y : i = len a -> vput (a ++ x :: b) i y = Ok (a ++ y :: b).
Proof.
  intros ->. unfold vput, len. rewrite app_length. cbn [length].
  destruct (Z.ltb_spec (Z.of_nat (length a)) 0); [lia|]. cbn [orb].
  destruct (Z.leb_spec (Z.of_nat (length a + S (length b))) (Z.of_nat (length a))); [lia|]. f_equal. rewrite Nat2Z.id.
  clear. induction a; cbn [app upd length]; [reflexivity|]. now f_equal.
Qed.
Lemma in_vec_at {A} (a m b : list A) i n : i = len a -> n = len m -> in_vec (a ++ m ++ b) i n = true.
Proof.
  intros -> ->. unfold in_vec, len. rewrite !app_length. apply andb_true_iff. split; [apply andb_true_iff; split|]; apply Z.leb_le; lia.
Qed.
Lemma firstn_at {A} (a b : list A) n : n = len a -> firstn (Z.to_nat n) (a ++ b) = a.
Proof. intros ->. unfold len. rewrite Nat2Z.id, firstn_app, Nat.sub_diag, firstn_all, firstn_O. apply app_nil_r. Qed.
Lemma skipn_at {A} (a b : list A) n : n = len a -> skipn (Z.to_nat n) (a ++ b) = b.
Proof. intros ->. unfold len. rewrite Nat2Z.id, skipn_app, Nat.sub_diag, skipn_all. reflexivity. Qed.
Lemma vslice_at {A} (a m b : list A) i n : i = len a -> n = len m -> vslice (a ++ m ++ b) i n = Ok m.
Proof. intros I N. unfold vslice. rewrite in_vec_at by auto. rewrite skipn_at, firstn_at by auto. reflexivity. Qed.
Lemma verase_at {A} (a m b : list A) i n : i = len a -> n = len m -> verase (a ++ m ++ b) i n = Ok (a ++ b).
Proof.
  intros I N. unfold verase. rewrite in_vec_at by auto. rewrite firstn_at by auto.
  rewrite (app_assoc a m b), (skipn_at (a ++ m) b) by (rewrite len_app; lia). reflexivity.
Qed.
Lemma vinsert_at {A} (a b m : list A) i : i = len a -> vinsert (a ++ b) i m = Ok (a ++ m ++ b).
Proof.
  intros I. unfold vinsert. rewrite (in_vec_at a [] b) by auto. rewrite firstn_at, skipn_at by auto. reflexivity.
Qed.
Lemma vreverse_at {A} (a m b : list A) i n : i = len a -> n = len m -> vreverse (a ++ m ++ b) i n = Ok (a ++ rev m ++ b).
Proof.
  intros I N. unfold vreverse. rewrite vslice_at by auto. cbn [bind]. rewrite firstn_at by auto.
  rewrite (app_assoc a m b), (skipn_at (a ++ m) b) by (rewrite len_app; lia). reflexivity.
Qed.

Ltac vg t := repeat (first [rewrite vget_at by t | rewrite vput_at by t]; cbn [bind]).

(** A loop over the indices of a list. *)
Lemma for_list {A S} (l : list A) (P : list A -> S -> Prop) body n s :
  n = len l -> P [] s ->
  (forall a x b s, l = a ++ x :: b -> P a s -> exists s', body (len a) s = Ok s' /\ P (a ++ [x]) s') ->
  exists s', for_up 0 n body s = Ok s' /\ P l s'.
Proof.
  intros -> P0 St.
  destruct (for_up_inv (fun k s => exists a b, l = a ++ b /\ len a = k /\ P a s) body 0 (len l) s) as (s' & E & a & b & El & L & Pa).
  - apply len_pos.
  - exists [], l. auto.
  - intros k s1 [K1 K2] (a & b & El & L & Pa). destruct b as [|x b].
    { exfalso. rewrite El, app_nil_r in K2. lia. }
    destruct (St a x b s1 El Pa) as (s2 & E & P2). exists s2. rewrite <- L. split; auto.
    exists (a ++ [x]), b. split; [rewrite El, <- app_assoc; reflexivity|]. split; auto. rewrite len_snoc. lia.
  - exists s'. split; auto. assert (b = []).
    { apply len0. rewrite El, len_app in L. lia. }
    subst b. rewrite app_nil_r in El. now subst a.
Qed.

Lemma points_app l m : points (l ++ m) = points l ++ points m.
Proof. apply flat_map_app. Qed.
Lemma points_mid l g m : points (l ++ g :: m) = points l ++ verts g ++ points m.
Proof. now rewrite points_app. Qed.

Lemma shows_mid d l1 g l2 : shows d (l1 ++ g :: l2) ->
  xv d = map fst (points l1) ++ map fst (verts g) ++ map fst (points l2) /\
  yv d = map snd (points l1) ++ map snd (verts g) ++ map snd (points l2) /\
  num_verts d = map (fun g => len (verts g)) l1 ++ len (verts g) :: map (fun g => len (verts g)) l2 /\
  closed d = map shut l1 ++ shut g :: map shut l2 /\ colors d = map col l1 ++ col g :: map col l2 /\
  layers d = map lay l1 ++ lay g :: map lay l2.
Proof.
  intros (A & B & C & D & E & F & G & H). rewrite A, B, C, F, G, H. rewrite points_mid, !map_app. cbn [map]. auto 10.
Qed.

Lemma start_of_at (l1 l2 : list polygon) p : p = len l1 -> start_of (map (fun g => len (verts g)) (l1 ++ l2)) p = Ok (len (points l1)).
Proof.
  intros ->. unfold start_of.
  destruct (for_list l1 (fun a s => s = len (points a)) (fun i s => n <- vget (map (fun g => len (verts g)) (l1 ++ l2)) i ;; Ok (s + n)) (len l1) 0) as (s & E & ->); auto.
  intros a x b s -> ->. rewrite map_app, map_app. cbn [map]. rewrite <- app_assoc. cbn [app]. rewrite vget_at by now rewrite len_map. cbn [bind].
  eexists. split; [reflexivity|]. rewrite points_mid, !len_app. cbn [points flat_map]. rewrite len_nil. lia.
Qed.
Lemma start_of_mid d l1 g l2 p : shows d (l1 ++ g :: l2) -> p = len l1 -> start_of (num_verts d) p = Ok (len (points l1)).
Proof. intros (_ & _ & C & _) ->. rewrite C. now apply start_of_at. Qed.
Lemma count_mid d l1 g l2 p : shows d (l1 ++ g :: l2) -> p = len l1 -> vget (num_verts d) p = Ok (len (verts g)).
Proof. intros S ->. apply shows_mid in S as (_ & _ & -> & _). apply vget_at. now rewrite len_map. Qed.

(** The loop over the polygons. *)
Lemma each_start_ok {S} counts n l (P : list polygon -> S -> Prop) body s :
  counts = map (fun g => len (verts g)) l -> n = len l -> P [] s ->
  (forall l1 g l2 s, l = l1 ++ g :: l2 -> P l1 s -> exists s', body (len l1) (len (points l1)) s = Ok s' /\ P (l1 ++ [g]) s') ->
  exists s', each_start counts n body s = Ok s' /\ P l s'.
Proof.
  intros -> -> P0 St. unfold each_start.
  destruct (for_list l (fun a r => fst r = len (points (removelast a)) /\ P a (snd r))
    (fun p r => start <- (if 0 <? p then n <- vget (map (fun g => len (verts g)) l) (p - 1) ;; Ok (fst r + n) else Ok (fst r)) ;;
                s <- body p start (snd r) ;; Ok (start, s)) (len l) (0, s)) as (r & E & _ & Pr).
  - reflexivity.
  - auto.
  - intros a x b [s0 s1] El [F Pa]. cbn [fst snd] in *.
    assert (St' : (if 0 <? len a then n <- vget (map (fun g => len (verts g)) l) (len a - 1) ;; Ok (s0 + n) else Ok s0) = Ok (len (points a))).
    { destruct a as [|y a] using rev_ind.
      - cbn. now rewrite F.
      - clear IHa. rewrite removelast_last in F. rewrite len_snoc. destruct (Z.ltb_spec 0 (len a + 1)); [|pose proof (len_pos a); lia].
        rewrite <- app_assoc in El. cbn [app] in El. subst l. rewrite map_app. cbn [map]. rewrite vget_at by (rewrite len_map; lia). cbn [bind].
        rewrite F, points_app, len_app. cbn [points flat_map]. rewrite app_nil_r. reflexivity. }
    rewrite St'. cbn [bind]. destruct (St a x b s1 El Pa) as (s2 & E & P2). rewrite E. cbn [bind]. eexists. split; [reflexivity|]. cbn [fst snd].
    rewrite removelast_last. auto.
  - rewrite E. cbn [bind]. eauto.
Qed.

Lemma each_poly_ok {S} d l (P : list polygon -> S -> Prop) body s :
  shows d l -> P [] s ->
  (forall l1 g l2 s, l = l1 ++ g :: l2 -> P l1 s -> exists s', body (len l1) (len (points l1)) s = Ok s' /\ P (l1 ++ [g]) s') ->
  exists s', each_poly d body s = Ok s' /\ P l s'.
Proof. intros (_ & _ & C & D & _) P0 St. apply each_start_ok; auto. Qed.

(** Replacing the vertices of a range. *)
Lemma map_pts_ok f a m b start n :
  start = len a -> n = len m ->
  map_pts f start n (map fst (a ++ m ++ b), map snd (a ++ m ++ b)) = Ok (map fst (a ++ map f m ++ b), map snd (a ++ map f m ++ b)).
Proof.
  intros -> ->. unfold map_pts.
  destruct (for_list m (fun m1 r => exists m2, m = m1 ++ m2 /\ r = (map fst (a ++ map f m1 ++ m2 ++ b), map snd (a ++ map f m1 ++ m2 ++ b)))
    (fun v r => x <- vget (fst r) (len a + v) ;; y <- vget (snd r) (len a + v) ;;
       let q := f (x, y) in xs <- vput (fst r) (len a + v) (fst q) ;; ys <- vput (snd r) (len a + v) (snd q) ;; Ok (xs, ys))
    (len m) (map fst (a ++ m ++ b), map snd (a ++ m ++ b))) as (r & E & m2 & Em & ->).
  - reflexivity.
  - exists m. auto.
  - intros m1 x m3 s -> (m2 & Em & ->). apply app_inv_head in Em. subst m2. cbn [fst snd].
    rewrite !(app_assoc a (map f m1)), !map_app. cbn [app map].
    assert (L : forall g : pt -> Q, len a + len m1 = len (map g a ++ map g (map f m1))) by (intros g; rewrite len_app, !len_map; reflexivity).
    vg ltac:(apply L). eexists. split; [reflexivity|]. exists m3. split; [now rewrite <- app_assoc|].
    rewrite <- surjective_pairing. repeat rewrite map_app. cbn [map]. repeat rewrite <- app_assoc. reflexivity.
  - assert (m2 = []) as -> by (rewrite <- (app_nil_r m) in Em at 1; now apply app_inv_head in Em).
    exact E.
Qed.

Ltac shw S := let A := fresh "A" in let B := fresh "B" in let C := fresh "C" in let D := fresh "D" in let E := fresh "E" in let F := fresh "F" in let G := fresh "G" in let H := fresh "H" in
  destruct S as (A & B & C & D & E & F & G & H).

(** ** Append *)

Lemma append_ok d l (a : list pt) m b n start cl co la :
  shows d l -> start = len a -> n = len m -> m <> [] ->
  exists d', append_polygon d n (map fst (a ++ m ++ b)) (map snd (a ++ m ++ b)) start cl co la = Ok d' /\
    shows d' (l ++ [Pg m cl co la]) /\ same_annos d d' /\ cloud d' = cloud d.
Proof.
  intros S -> -> NE. unfold append_polygon. destruct (Z.leb_spec (len m) 0).
  { elim NE. apply len0. pose proof (len_pos m). lia. }
  destruct (for_list m (fun m1 r => r = (xv d ++ map fst m1, yv d ++ map snd m1))
    (fun s r => x <- vget (map fst (a ++ m ++ b)) (len a + s) ;; y <- vget (map snd (a ++ m ++ b)) (len a + s) ;; Ok (fst r ++ [x], snd r ++ [y]))
    (len m) (xv d, yv d)) as (r & E & ->).
  - reflexivity.
  - now rewrite !app_nil_r.
  - intros m1 x m2 s -> ->. rewrite <- !app_assoc. cbn [app]. rewrite !(app_assoc a m1), !map_app. cbn [map].
    vg ltac:(rewrite len_app, !len_map; reflexivity). cbn [fst snd]. eexists. split; [reflexivity|]. now rewrite <- !app_assoc.
  - rewrite E. cbn [bind]. eexists. split; [reflexivity|]. shw S.
    split; [|split; [repeat split|reflexivity]]. unfold shows. cbn [xv yv num_verts num_polys total closed colors layers fst snd].
    rewrite points_app. cbn [points flat_map verts]. rewrite app_nil_r. rewrite !map_app. cbn [map verts shut col lay].
    rewrite A, B, C, D, E0, F, G, H0. rewrite len_snoc, len_app. repeat split; reflexivity.
Qed.

Lemma append_none d n xs ys start cl co la : n <= 0 -> append_polygon d n xs ys start cl co la = Ok d.
Proof. intros N. unfold append_polygon. destruct (Z.leb_spec n 0); [reflexivity|lia]. Qed.

Lemma filter_last {A} (f : A -> bool) l x : filter f (l ++ [x]) = filter f l ++ (if f x then [x] else []).
Proof. rewrite filter_app. reflexivity. Qed.

Lemma append_polygon_of d l p m1 g m2 :
  shows d l -> shows p (m1 ++ g :: m2) ->
  exists d', append_polygon d (len (verts g)) (xv p) (yv p) (len (points m1)) (shut g) (col g) (lay g) = Ok d' /\
    shows d' (l ++ (if full g then [g] else [])) /\ same_annos d d' /\ cloud d' = cloud d.
Proof.
  intros S P. unfold full. destruct (verts g) as [|v vs] eqn:V.
  - rewrite append_none by reflexivity. exists d. rewrite app_nil_r. repeat split; try apply S; auto.
  - shw P. rewrite A, B, points_mid. destruct (append_ok d l (points m1) (verts g) (points m2) (len (v :: vs)) (len (points m1)) (shut g) (col g) (lay g)) as (d' & E' & S' & R).
    + exact S.
    + reflexivity.
    + now rewrite V.
    + now rewrite V.
    + exists d'. split; auto. destruct g. exact (conj S' R).
Qed.

Lemma same_annos_refl d : same_annos d d.
Proof. repeat split. Qed.
Lemma same_annos_trans d e f : same_annos d e -> same_annos e f -> same_annos d f.
Proof. intros (A & B & C & D) (A' & B' & C' & D'). repeat split; congruence. Qed.

Lemma append_polygons_ok d l p m :
  shows d l -> shows p m ->
  exists d', append_polygons d p = Ok d' /\ shows d' (l ++ filter full m) /\
    annos d' = annos d ++ annos p /\ vert_annos d' = vert_annos d /\ poly_annos d' = poly_annos d /\ layer_annos d' = layer_annos d /\ cloud d' = cloud d.
Proof.
  intros S P. unfold append_polygons.
  destruct (each_poly_ok p m (fun m1 d' => shows d' (l ++ filter full m1) /\ same_annos d d' /\ cloud d' = cloud d)
    (fun i start d => cl <- vget (closed p) i ;; co <- vget (colors p) i ;; la <- vget (layers p) i ;; n <- vget (num_verts p) i ;;
       append_polygon d n (xv p) (yv p) start cl co la) d) as (d' & E & S' & (A1 & A2 & A3 & A4) & Cl).
  - exact P.
  - cbn [filter]. rewrite app_nil_r. auto using same_annos_refl.
  - intros m1 g m2 s -> (S1 & An & Cl). destruct (shows_mid p m1 g m2 P) as (_ & _ & C & D & E & F). rewrite C, D, E, F.
    vg ltac:(now rewrite len_map).
    destruct (append_polygon_of s _ p m1 g m2 S1 P) as (d' & E' & S' & An' & Cl'). exists d'. split; auto.
    rewrite filter_last, app_assoc. split; [exact S'|]. split; [eapply same_annos_trans; eauto|congruence].
  - rewrite E. cbn [bind]. eexists. split; [reflexivity|]. split; [exact S'|].
    cbn [set_anno annos vert_annos poly_annos layer_annos cloud]. rewrite A1. auto.
Qed.
