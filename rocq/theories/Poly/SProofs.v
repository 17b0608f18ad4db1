(** Sorting polygons by size. *)
From Coq Require Import String List Bool ZArith QArith Qround Permutation Lia Lqa.
From Verif Require Import Lib.Base Lib.Lists Lib.Str Poly.Model Poly.Spec Poly.Proofs Poly.EProofs Poly.GProofs.
Import ListNotations.
Local Open Scope list_scope.
Local Open Scope Z_scope.

Lemma F2_len {A B} (R : A -> B -> Prop) l m : Forall2 R l m -> length l = length m.
Proof. induction 1; cbn [length]; auto. Qed.
Lemma box_same l b c : smallest_box l b -> smallest_box l c -> (bxl b == bxl c /\ bxh b == bxh c /\ byl b == byl c /\ byh b == byh c)%Q.
Proof. intros [A B] [A' B']. pose proof (B c A'). pose proof (B' b A). repeat split; lra. Qed.

Definition key (g : polygon) (e : entry) : Prop :=
  (full g = true -> exists b, smallest_box (verts g) b /\ e_w e = bxh b - bxl b /\ e_h e = byh b - byl b)%Q /\ (e_area e == absq (area (verts g)))%Q.

Lemma qabs_absq x y : (x == y \/ x == - y)%Q -> (qabs x == absq y)%Q.
Proof.
  intros H. unfold qabs, absq. destruct (ltq x 0) eqn:A, (Qle_bool 0 y) eqn:B; qb; destruct H as [H|H]; lra.
Qed.

Lemma dims_ok d l cc boxes : shows d l ->
  Forall2 (fun g b => if full g then smallest_box (verts g) b else b = no_box) l boxes ->
  exists es, each_start (num_verts d) (Z.of_nat (length boxes)) (fun s start dims =>
    n <- vget (num_verts d) s ;; b <- vget boxes s ;;
    area <- signed_poly_area n (xv d) (yv d) start cc ;;
    Ok (dims ++ [Entry (bxh b - bxl b)%Q (byh b - byl b)%Q (qabs area) s])) [] = Ok es /\
    map e_index es = zrange 0 (len l) /\ Forall2 key l es.
Proof.
  intros S F. apply (each_start_ok (num_verts d) (Z.of_nat (length boxes)) l (fun l1 es => map e_index es = zrange 0 (len l1) /\ Forall2 key l1 es)).
  - apply S.
  - apply F2_len in F. unfold len. now rewrite F.
  - auto.
  - intros l1 g l2 es -> [I K]. rewrite (count_mid d l1 g l2) by auto. cbn [bind].
    apply Forall2_app_inv_l in F as (b1 & b2 & F1 & F2 & ->). inversion F2 as [|? b ? b2' Hb F2']. subst. rewrite vget_at by (unfold len; f_equal; eapply F2_len; eauto). cbn [bind].
    destruct S as (A & B & _). rewrite A, B, points_mid. destruct (area_ok (points l1) (verts g) (points l2) (len (verts g)) (len (points l1)) cc eq_refl eq_refl) as (v & Ev & Vv).
    rewrite Ev. cbn [bind]. eexists. split; [reflexivity|]. split.
    + rewrite map_app, I. cbn [map e_index]. rewrite len_snoc. pose proof (len_pos l1). rewrite (zrange_app 0 (len l1) (len l1 + 1)) by lia. rewrite (zrange_cons (len l1)), (zrange_nil (len l1 + 1)) by lia. reflexivity.
    + apply Forall2_snoc; auto. split; cbn [e_w e_h e_area].
      * intros Fg. rewrite Fg in Hb. eauto.
      * apply qabs_absq. destruct cc; auto.
Qed.

(** The polygon of an entry. *)
Definition dummy : polygon := Pg [] false [] [].
Definition of_entry (l : list polygon) (e : entry) : polygon := nth (Z.to_nat (e_index e)) l dummy.

Lemma of_entries l es : map e_index es = zrange 0 (len l) -> map (of_entry l) es = l.
Proof.
  intros I. unfold of_entry. rewrite <- (map_map e_index (fun i => nth (Z.to_nat i) l dummy)), I. clear.
  induction l as [|x l IH] using rev_ind; [reflexivity|]. rewrite len_snoc. pose proof (len_pos l). rewrite (zrange_app 0 (len l) (len l + 1)) by lia. rewrite map_app.
  rewrite (zrange_cons (len l)), (zrange_nil (len l + 1)) by lia. cbn [map]. f_equal.
  - etransitivity; [|exact IH]. apply map_ext_in. intros i Hi. apply in_zrange in Hi. apply app_nth1. unfold len in Hi. lia.
  - unfold len. rewrite Nat2Z.id, app_nth2, Nat.sub_diag by lia. reflexivity.
Qed.
Lemma entries_in l es : map e_index es = zrange 0 (len l) -> forall e, In e es -> exists l1 l2, l = l1 ++ of_entry l e :: l2 /\ e_index e = len l1.
Proof.
  intros I e Ie. apply (in_map e_index) in Ie. rewrite I in Ie. apply in_zrange in Ie. destruct (split_at l (e_index e) Ie) as (l1 & g & l2 & E & L).
  exists l1, l2. assert (of_entry l e = g) as ->; auto. unfold of_entry. rewrite <- L, E. unfold len. rewrite Nat2Z.id, app_nth2, Nat.sub_diag by lia. reflexivity.
Qed.
Lemma points_perm l m : Permutation l m -> len (points l) = len (points m).
Proof. intros P. induction P; auto; unfold points in *; cbn [flat_map]; rewrite ?len_app; lia. Qed.

Lemma skipn_cons {A} (l : list A) n : (n < length l)%nat -> exists x, skipn n l = x :: skipn (S n) l.
Proof.
  revert n. induction l as [|y l IH]; intros [|n] H; cbn [length] in H; try lia; [exists y; reflexivity|]. apply IH. lia.
Qed.

(** One array is filled from the front with the values of the sorted polygons. *)
Lemma refill {B} (f : polygon -> B) (l k : list polygon) g : (length k < length l)%nat ->
  vput (map f k ++ map f (skipn (length k) l)) (len k) (f g) = Ok (map f (k ++ [g]) ++ map f (skipn (length (k ++ [g])) l)).
Proof.
  intros L. destruct (skipn_cons l (length k) L) as [x ->]. cbn [map]. rewrite vput_at by now rewrite len_map. rewrite map_app, app_length. cbn [map length]. rewrite Nat.add_1_r, <- app_assoc. reflexivity.
Qed.

Lemma copy_ok (src1 v src2 a old : list pt) start start2 n :
  start2 = len src1 -> start = len a -> n = len v -> (length a + length v <= length old)%nat ->
  for_up 0 n (fun i pts =>
      x <- vget (map fst (src1 ++ v ++ src2)) (start2 + i) ;; xs <- vput (fst pts) (start + i) x ;;
      y <- vget (map snd (src1 ++ v ++ src2)) (start2 + i) ;; ys <- vput (snd pts) (start + i) y ;; Ok (xs, ys))
    (map fst (a ++ skipn (length a) old), map snd (a ++ skipn (length a) old)) =
  Ok (map fst ((a ++ v) ++ skipn (length (a ++ v)) old), map snd ((a ++ v) ++ skipn (length (a ++ v)) old)).
Proof.
  intros -> -> -> L. unfold pt in *.
  match goal with |- for_up 0 ?n ?body ?s0 = _ =>
    destruct (for_list v (fun w s => s = (map fst ((a ++ w) ++ skipn (length (a ++ w)) old), map snd ((a ++ w) ++ skipn (length (a ++ w)) old))) body n s0) as (s & E & ->)
  end; auto.
  - now rewrite app_nil_r.
  - intros w x w' s -> ->. cbn [fst snd]. rewrite app_length in L. cbn [length] in L.
    assert (V : nth_error (w ++ x :: w') (length w) = Some x) by (rewrite nth_error_app2, Nat.sub_diag by lia; reflexivity).
    rewrite (map_app fst src1), (map_app fst (w ++ x :: w')), (map_app snd src1), (map_app snd (w ++ x :: w')).
    rewrite (vget_nth (map fst src1) (map fst (w ++ x :: w')) (map fst src2) (length w) (fst x)) by (try (apply map_nth_error; exact V); now rewrite len_map). cbn [bind].
    rewrite (vget_nth (map snd src1) (map snd (w ++ x :: w')) (map snd src2) (length w) (snd x)) by (try (apply map_nth_error; exact V); now rewrite len_map).
    destruct (skipn_cons old (length (a ++ w))) as [y Hy]; [rewrite app_length; lia|]. rewrite Hy.
    rewrite (map_app fst (a ++ w)), (map_app snd (a ++ w)). cbn [map]. rewrite vput_at by (rewrite len_map, len_app; reflexivity). cbn [bind]. rewrite vput_at by (rewrite len_map, len_app; reflexivity). cbn [bind].
    eexists. split; [reflexivity|]. rewrite (app_assoc a w [x]), (app_length (a ++ w) [x]). cbn [length]. rewrite Nat.add_1_r.
    rewrite (map_app fst ((a ++ w) ++ [x])), (map_app snd ((a ++ w) ++ [x])), (map_app fst (a ++ w) [x]), (map_app snd (a ++ w) [x]). rewrite <- !app_assoc. reflexivity.
Qed.

Lemma sort_ok sort cc d l : sorts sort -> shows d l ->
  exists d' l', sort_by_size sort cc d = Ok d' /\ shows d' l' /\ Permutation l l' /\ from_large_to_small l' /\ same_annos d d' /\ cloud d' = cloud d.
Proof.
  intros So S. unfold sort_by_size. destruct (bd_boxes_ok d l S) as (boxes & Eb & Fb). rewrite Eb. cbn [bind].
  destruct (dims_ok d l cc boxes S Fb) as (es & Ee & I & K). rewrite Ee. cbn [bind]. destruct (So es) as [Pe Se]. set (fs := sort es) in *. clearbody fs.
  assert (Lb : Z.of_nat (length boxes) = len l) by (apply F2_len in Fb; unfold len; now rewrite Fb). rewrite Lb.
  set (l' := map (of_entry l) fs).
  assert (Pl : Permutation l l') by (rewrite <- (of_entries l es I) at 1; now apply Permutation_map).
  assert (Ll : length l' = length l) by now rewrite <- (Permutation_length Pl).
  assert (In_fs : forall e, In e fs -> exists l1 l2, l = l1 ++ of_entry l e :: l2 /\ e_index e = len l1) by (intros e Ie; apply (entries_in l es I); now apply (Permutation_in e (Permutation_sym Pe))).
  assert (Fs : forall k g k', l' = k ++ g :: k' -> exists e l1 l2, vget fs (len k) = Ok e /\ l = l1 ++ g :: l2 /\ e_index e = len l1).
  { intros k g k' El. unfold l' in El. apply map_eq_app in El as (f1 & f2 & Ef & E1 & E2). apply map_eq_cons in E2 as (e & f3 & -> & <- & E3).
    destruct (In_fs e) as (l1 & l2 & El & Ei); [rewrite Ef; apply in_or_app; right; now left|]. exists e, l1, l2. split; auto. rewrite Ef. apply vget_at. rewrite <- E1. apply len_map. }
  pose proof S as S'. shw S'. rewrite A, B, C, F, G, H.
  match goal with |- context [for_up 0 (len l) ?body ?s0] =>
    destruct (for_list l' (fun k t => t = (map (fun g => len (verts g)) k ++ map (fun g => len (verts g)) (skipn (length k) l), map shut k ++ map shut (skipn (length k) l),
       (map col k ++ map col (skipn (length k) l), map lay k ++ map lay (skipn (length k) l)))) body (len l) s0) as (t & Et & ->)
  end.
  - unfold len. now rewrite Ll.
  - reflexivity.
  - intros k g k' t El ->. destruct (Fs k g k' El) as (e & l1 & l2 & Ve & El1 & Ei). rewrite Ve. cbn [bind]. cbv zeta. rewrite Ei.
    assert (Lk : (length k < length l)%nat) by (rewrite <- Ll, El, app_length; cbn [length]; lia).
    assert (Vg : forall T (f : polygon -> T), vget (map f l) (len l1) = Ok (f g)) by (intros T f; rewrite El1, map_app; cbn [map]; apply vget_at; now rewrite len_map).
    pose proof (refill (fun g => len (verts g)) l k g Lk) as R1. cbv beta in R1. pose proof (refill shut l k g Lk) as R2. pose proof (refill col l k g Lk) as R3. pose proof (refill lay l k g Lk) as R4.
    rewrite (Vg Z (fun g => len (verts g))), (Vg bool shut), (Vg str col), (Vg str lay). cbn [bind]. rewrite R1. cbn [bind]. rewrite R2. cbn [bind]. rewrite R3. cbn [bind]. rewrite R4. cbn [bind]. eauto.
  - rewrite Et. cbn [bind]. rewrite Ll, skipn_all. cbn [map]. rewrite !app_nil_r.
    assert (Lp : len (points l') = len (points l)) by (symmetry; now apply points_perm).
    match goal with |- context [each_start ?c (len l) ?body ?s0] =>
      destruct (each_start_ok c (len l) l' (fun k r => r = (map fst (points k ++ skipn (length (points k)) (points l)), map snd (points k ++ skipn (length (points k)) (points l)))) body s0) as (r & Er & ->)
    end.
    + reflexivity.
    + unfold len. now rewrite Ll.
    + reflexivity.
    + intros k g k' r El ->. destruct (Fs k g k' El) as (e & l1 & l2 & Ve & El1 & Ei). rewrite Ve. cbn [bind]. rewrite Ei.
      assert (Q1 : start_of (map (fun g => len (verts g)) l) (len l1) = Ok (len (points l1))) by (rewrite El1; now apply start_of_at). rewrite Q1. cbn [bind].
      assert (Q2 : vget (map (fun g => len (verts g)) l') (len k) = Ok (len (verts g))) by (rewrite El, map_app; cbn [map]; apply vget_at; now rewrite len_map). rewrite Q2. cbn [bind].
      eexists. split.
      * assert (Pm : points l = points l1 ++ verts g ++ points l2) by now rewrite El1, points_mid.
        pose proof (copy_ok (points l1) (verts g) (points l2) (points k) (points l) _ _ _ eq_refl eq_refl eq_refl) as Cp. rewrite <- Pm in Cp. apply Cp. rewrite El in Lp. unfold len in Lp. rewrite points_mid, !app_length in Lp. lia.
      * rewrite points_app. cbn [points flat_map]. rewrite app_nil_r. reflexivity.
    + rewrite Er. cbn [bind fst snd]. eexists. exists l'. split; [reflexivity|]. split.
      * unfold len in Lp. apply Nat2Z.inj in Lp. rewrite Lp, skipn_all, app_nil_r. unfold shows. cbn [xv yv num_verts num_polys total closed colors layers]. rewrite D, E.
        repeat split; try reflexivity; unfold len; congruence.
      * split; [auto|]. split; [|split; [repeat split|reflexivity]].
        intros a g b h c El Fg Fh. unfold l' in El. apply map_eq_app in El as (f1 & f2 & Ef & _ & E2). apply map_eq_cons in E2 as (x & f3 & -> & Gx & E3).
        apply map_eq_app in E3 as (f4 & f5 & -> & _ & E4). apply map_eq_cons in E4 as (y & f6 & -> & Hy & _).
        specialize (Se f1 x f4 y f6 Ef).
        assert (Ky : forall e, In e fs -> key (of_entry l e) e).
        { intros e Ie. apply (Permutation_in e (Permutation_sym Pe)) in Ie. clear - I K Ie. rewrite <- (of_entries l es I) in K at 1. revert K Ie. clear I. generalize (of_entry l). intros f.
          induction es as [|z es IH]; intros K Ie; [destruct Ie|]. cbn [map] in K. inversion K; subst. destruct Ie as [->|Ie]; auto. }
        assert (Kx := Ky x). rewrite Gx in Kx. specialize (Ky y). rewrite Hy in Ky. rewrite Ef in Kx, Ky.
        destruct Kx as [(bx & Sb & W1 & H1) Ar1]; [apply in_or_app; right; now left|auto|]. destruct Ky as [(cx & Sc & W2 & H2) Ar2]; [apply in_or_app; right; right; apply in_or_app; right; now left|auto|].
        intros b' c' B' C'. cbv zeta. destruct (box_same _ _ _ Sb B') as (X1 & X2 & X3 & X4). destruct (box_same _ _ _ Sc C') as (Y1 & Y2 & Y3 & Y4).
        unfold greater_entry, greater_pt in Se. rewrite W1, W2, H1, H2 in Se.
        destruct (ltq (bxh bx - bxl bx) (bxh cx - bxl cx)) eqn:L1; [discriminate|]. cbn [orb] in Se.
        destruct (ltq (bxh cx - bxl cx) (bxh bx - bxl bx)) eqn:L2; [qb; left; lra|]. cbn [orb] in Se.
        destruct (Qeq_bool (bxh cx - bxl cx) (bxh bx - bxl bx)) eqn:Q1; [|qb; exfalso; apply Q1; lra]. cbn [andb] in Se.
        destruct (ltq (byh bx - byl bx) (byh cx - byl cx)) eqn:L3; [discriminate|].
        destruct (Qeq_bool (bxh bx - bxl bx) (bxh cx - bxl cx)) eqn:Q2; [|qb; exfalso; apply Q2; lra]. cbn [andb] in Se.
        destruct (ltq (byh cx - byl cx) (byh bx - byl bx)) eqn:L4; [qb; right; split; [lra|left; lra]|].
        qb. right. split; [lra|]. right. split; [lra|]. lra.
Qed.

(** ** A sort *)

Fixpoint insert_entry (e : entry) (l : list entry) : list entry :=
  match l with [] => [e] | x :: l' => if greater_entry x e then x :: insert_entry e l' else e :: x :: l' end.
Definition insertion_sort (l : list entry) : list entry := fold_right insert_entry [] l.

(** The sizes in order: not greater. *)
Definition le_entry (x y : entry) : Prop := greater_entry y x = false.
Lemma le_entry_spec x y : le_entry x y <->
  (e_w y < e_w x \/ e_w x == e_w y /\ (e_h y < e_h x \/ e_h x == e_h y /\ e_area y <= e_area x))%Q.
Proof.
  unfold le_entry, greater_entry, greater_pt.
  destruct (ltq (e_w x) (e_w y)) eqn:A, (ltq (e_w y) (e_w x)) eqn:B, (Qeq_bool (e_w y) (e_w x)) eqn:C, (Qeq_bool (e_w x) (e_w y)) eqn:D,
    (ltq (e_h x) (e_h y)) eqn:E, (ltq (e_h y) (e_h x)) eqn:F, (ltq (e_area x) (e_area y)) eqn:G; cbn [andb orb]; qb; split; intros H; try discriminate; try reflexivity; try lra; exfalso; try lra.
  all: try (apply C; lra); try (apply D; lra).
Qed.
Lemma le_trans x y z : le_entry x y -> le_entry y z -> le_entry x z.
Proof. rewrite !le_entry_spec. lra. Qed.
Lemma le_total x y : greater_entry y x = true -> le_entry y x.
Proof.
  intros G. destruct (greater_entry x y) eqn:E; auto. exfalso.
  assert (N : ~ le_entry x y) by (unfold le_entry; rewrite G; discriminate). assert (M : ~ le_entry y x) by (unfold le_entry; rewrite E; discriminate).
  rewrite le_entry_spec in N, M. destruct (Q_dec (e_w x) (e_w y)) as [[?|?]|?], (Q_dec (e_h x) (e_h y)) as [[?|?]|?], (Q_dec (e_area x) (e_area y)) as [[?|?]|?]; (apply N + apply M); lra.
Qed.
Definition ordered (l : list entry) : Prop := forall a x b y c, l = a ++ x :: b ++ y :: c -> le_entry x y.
Lemma ordered_cons x l : ordered (x :: l) <-> (forall y, In y l -> le_entry x y) /\ ordered l.
Proof.
  split.
  - intros O. split.
    + intros y I. apply in_split in I as (b & c & ->). apply (O [] x b y c). reflexivity.
    + intros a z b y c ->. apply (O (x :: a) z b y c). reflexivity.
  - intros [A O] a z b y c E. destruct a as [|a0 a].
    + cbn in E. injection E as <- ->. apply A. apply in_or_app. right. now left.
    + cbn in E. injection E as <- ->. now apply (O a z b y c).
Qed.
Lemma insert_perm e l : Permutation (e :: l) (insert_entry e l).
Proof. induction l as [|x l IH]; cbn [insert_entry]; [reflexivity|]. destruct (greater_entry x e); [|reflexivity]. rewrite perm_swap. now constructor. Qed.
Lemma insert_ordered e l : ordered l -> ordered (insert_entry e l).
Proof.
  induction l as [|x l IH]; intros O; cbn [insert_entry].
  - apply ordered_cons. split; [intros y []|exact O].
  - apply ordered_cons in O as [A O]. destruct (greater_entry x e) eqn:G.
    + apply ordered_cons. split; auto. intros y I. apply (Permutation_in y (Permutation_sym (insert_perm e l))) in I as [<-|I]; auto. now apply le_total.
    + apply ordered_cons. split; [|apply ordered_cons; auto]. intros y [<-|I]; auto. apply le_trans with x; auto.
Qed.
Lemma insertion_sorts : sorts insertion_sort.
Proof.
  intros l. split.
  - induction l as [|e l IH]; [constructor|]. cbn [insertion_sort fold_right]. rewrite <- insert_perm. now constructor.
  - assert (O : ordered (insertion_sort l)).
    { induction l as [|e l IH]; [intros [|? a] x b y c E; discriminate|]. now apply insert_ordered. }
    exact O.
Qed.

(** ** The rectangle around all *)

Lemma box_exists (l : list pt) : l <> [] -> exists b, smallest_box l b.
Proof.
  intros N. destruct (box_of_range_ok [] l [] 0 (len l) eq_refl eq_refl N) as (b & _ & S). eauto.
Qed.
Lemma minq_le a b : (minq a b <= a /\ minq a b <= b)%Q.
Proof. unfold minq. destruct (ltq b a) eqn:E; qb; lra. Qed.
Lemma maxq_ge a b : (a <= maxq a b /\ b <= maxq a b)%Q.
Proof. unfold maxq. destruct (ltq a b) eqn:E; qb; lra. Qed.
Lemma qabs_pos a : (0 <= qabs a)%Q.
Proof. unfold qabs. destruct (ltq a 0) eqn:E; qb; lra. Qed.

Lemma rect_area xl yl xh yh : (area (rect xl yl xh yh) == (xh - xl) * (yh - yl))%Q.
Proof. unfold area, rect, ring, qsum, wedge. cbn [app combine fold_right fst snd]. field. Qed.
Lemma rect_box xl yl xh yh b : (xl <= xh)%Q -> (yl <= yh)%Q -> smallest_box (rect xl yl xh yh) b -> (bxl b == xl /\ bxh b == xh)%Q.
Proof.
  intros X Y [A B]. destruct (B (QB xl yl xh yh)) as (B1 & B2 & _).
  - intros p [<-|[<-|[<-|[<-|[]]]]]; unfold inside_box; cbn [fst snd bxl bxh byl byh]; lra.
  - cbn [bxl bxh] in *. pose proof (A (xl, yl) (or_introl eq_refl)) as A1. pose proof (A (xh, yl) (or_intror (or_introl eq_refl))) as A2. unfold inside_box in *. cbn [fst snd] in *. lra.
Qed.

Lemma rect_append d l xl yl xh yh cl co la : shows d l ->
  exists d', append_rectangle d xl yl xh yh cl co la = Ok d' /\ shows d' (l ++ [Pg (rect xl yl xh yh) cl co la]) /\ same_annos d d' /\ cloud d' = cloud d.
Proof.
  intros S. unfold append_rectangle. apply (append_ok d l [] (rect xl yl xh yh) [] 4 0 cl co la); auto. discriminate.
Qed.

Lemma sort_add_ok sort w d l : sorts sort -> shows d l ->
  exists d' l', sort_add_rect sort true w d = Ok d' /\ shows d' l' /\ from_large_to_small l' /\ same_annos d d' /\ cloud d' = cloud d /\ first_not_negative l' /\
    (Permutation l l' \/ exists xl yl xh yh co la,
       Permutation (Pg (rect xl yl xh yh) true co la :: l) l' /\
       (forall p, In p (points l) -> xl < fst p < xh /\ yl < snd p < yh)%Q /\ (xl < bxl w /\ yl < byl w /\ bxh w < xh /\ byh w < yh)%Q).
Proof.
  intros So S. unfold sort_add_rect. destruct (sort_ok sort true d l So S) as (d1 & l1 & E1 & S1 & P1 & F1 & A1 & C1). rewrite E1. cbn [bind].
  assert (N1 : num_polys d1 = len l1) by apply S1. rewrite N1.
  destruct l1 as [|g l1]; [exists d1, []; split; [reflexivity|]; split; [auto|]; split; [auto|]; split; [auto|]; split; [auto|]; split; [exact I|auto]|].
  destruct (Z.leb_spec (len (g :: l1)) 0); [rewrite len_cons in *; pose proof (len_pos l1); lia|].
  rewrite (count_mid d1 [] g l1) by auto. cbn [bind]. pose proof S1 as S1'. destruct S1' as (X & Y & _). rewrite X, Y.
  destruct (area_ok [] (verts g) (points l1) (len (verts g)) 0 true eq_refl eq_refl) as (v & Ev & Vv). cbn [app] in Ev.
  change (points (g :: l1)) with (verts g ++ points l1). rewrite Ev. cbn [bind]. destruct (Qle_bool 0 v) eqn:Pos; qb.
  - exists d1, (g :: l1). split; [reflexivity|]; split; [auto|]; split; [auto|]; split; [auto|]; split; [auto|]; split; [|auto]. cbn [first_not_negative]. lra.
  - assert (Ng : verts g <> []). { intros Z0. rewrite Z0 in Vv. change (area []) with (0 / 2)%Q in Vv. assert (0 / 2 == 0)%Q by reflexivity. lra. }
    destruct (bd_box_ok d1 (g :: l1) S1) as (b & Eb & Sb); [unfold points; cbn [flat_map]; destruct (verts g); [congruence|discriminate]|]. rewrite Eb. cbn [bind]. cbv zeta.
    set (xl := minq (bxl b) (bxl w)). set (xh := maxq (bxh b) (bxh w)). set (yl := minq (byl b) (byl w)). set (yh := maxq (byh b) (byh w)).
    set (ex := (maxq (qabs (xh - xl)) (qabs (yh - yl)) + 10)%Q).
    destruct (shows_mid d1 [] g l1 S1) as (_ & _ & _ & _ & Co & La). cbn [map app] in Co, La. rewrite Co, La.
    assert (Vc : forall T (x : T) r, vget (x :: r) 0 = Ok x) by reflexivity. rewrite !Vc. cbn [bind]. rewrite ?Vc. cbn [bind].
    destruct (rect_append d1 (g :: l1) (xl - ex) (yl - ex) (xh + ex) (yh + ex) true (col g) (lay g) S1) as (d2 & E2 & S2 & A2 & C2). rewrite E2. cbn [bind].
    destruct (sort_ok sort true d2 _ So S2) as (d3 & l3 & E3 & S3 & P3 & F3 & A3 & C3). rewrite E3.
    assert (Ex : (10 <= ex)%Q) by (unfold ex; pose proof (maxq_ge (qabs (xh - xl)) (qabs (yh - yl))); pose proof (qabs_pos (xh - xl)); lra).
    pose proof (minq_le (bxl b) (bxl w)) as M1. pose proof (minq_le (byl b) (byl w)) as M2. pose proof (maxq_ge (bxh b) (bxh w)) as M3. pose proof (maxq_ge (byh b) (byh w)) as M4.
    fold xl in M1. fold yl in M2. fold xh in M3. fold yh in M4. clearbody ex xl xh yl yh.
    assert (Bnd : (bxl b <= bxh b /\ byl b <= byh b)%Q).
    { destruct (verts g) as [|q vs] eqn:Vg; [congruence|]. destruct (proj1 Sb q) as [Bx By]; [unfold points; cbn [flat_map]; rewrite Vg; now left|]. lra. }
    set (R := Pg (rect (xl - ex) (yl - ex) (xh + ex) (yh + ex)) true (col g) (lay g)) in *.
    exists d3, l3. split; auto. split; auto. split; auto. split; [eapply same_annos_trans; [exact A1|]; eapply same_annos_trans; eauto|]. split; [congruence|]. split.
    + destruct l3 as [|h l3]; [exact I|]. cbn [first_not_negative]. destruct (full h) eqn:Fh.
      * assert (IR : In R (h :: l3)) by (apply (Permutation_in R P3), in_or_app; right; now left).
        assert (AR : (0 <= area (verts R))%Q) by (unfold R; cbn [verts]; rewrite rect_area; apply Qmult_le_0_compat; lra).
        destruct IR as [->|IR]; auto.
        assert (Ih : In h ((g :: l1) ++ [R])) by (apply (Permutation_in h (Permutation_sym P3)); now left). apply in_app_or in Ih as [Ih|[<-|[]]]; auto.
        exfalso. apply in_split in IR as (u & v' & El).
        assert (AL : as_large h R) by (apply (F3 [] h u R v'); [cbn [app]; now rewrite El|auto|reflexivity]).
        destruct (box_exists (verts h)) as [bh Bh]; [unfold full in Fh; destruct (verts h); discriminate|]. destruct (box_exists (verts R)) as [bR BR]; [discriminate|].
        specialize (AL bh bR Bh BR). cbv zeta in AL. destruct (rect_box (xl - ex) (yl - ex) (xh + ex) (yh + ex) bR) as [R1 R2]; [lra|lra|exact BR|].
        assert (Sub : forall p, In p (verts h) -> inside_box b p) by (intros p Ip; apply (proj1 Sb); unfold points; apply in_flat_map; eauto).
        destruct (proj2 Bh b Sub) as (K1 & K2 & _). lra.
      * unfold full in Fh. destruct (verts h); [|discriminate]. change (area []) with (0 / 2)%Q; assert (Z0 : (0 / 2 == 0)%Q) by reflexivity; lra.
    + right. exists (xl - ex)%Q, (yl - ex)%Q, (xh + ex)%Q, (yh + ex)%Q, (col g), (lay g). fold R. split.
      * rewrite <- P3. rewrite P1. apply (Permutation_cons_append (g :: l1) R).
      * split; [|lra]. intros p Ip. assert (Ip' : In p (points (g :: l1))).
        { unfold points in *. apply in_flat_map in Ip as (h & Ih & Ip). apply in_flat_map. exists h. split; auto. now apply (Permutation_in h P1). }
        apply (proj1 Sb) in Ip'. unfold inside_box in Ip'. lra.
Qed.
