(** Boxes, areas, points in polygons and the nearest vertex or edge. *)
From Coq Require Import String List Bool ZArith QArith Qround Lia Lqa.
From Verif Require Import Lib.Base Lib.Lists Lib.Str Poly.Model Poly.Spec Poly.Proofs.
From Verif Require Cut.Model Cut.Spec.
Import ListNotations.
Local Open Scope list_scope.
Local Open Scope Q_scope.

Lemma ltq_true a b : ltq a b = true <-> a < b.
Proof. unfold ltq. rewrite negb_true_iff. split; [intros H; apply Qnot_le_lt; rewrite <- Qle_bool_iff, H; discriminate|intros H; destruct (Qle_bool b a) eqn:E; auto; apply Qle_bool_iff in E; lra]. Qed.
Lemma ltq_false a b : ltq a b = false <-> b <= a.
Proof. unfold ltq. rewrite negb_false_iff. apply Qle_bool_iff. Qed.
Lemma leb_false a b : Qle_bool a b = false <-> b < a.
Proof. rewrite <- ltq_true. unfold ltq. now rewrite negb_true_iff. Qed.
Lemma eqb_false a b : Qeq_bool a b = false <-> ~ a == b.
Proof. rewrite <- Qeq_bool_iff. destruct (Qeq_bool a b); split; congruence. Qed.
Ltac qb := repeat first
  [ match goal with
    | H : ltq _ _ = true |- _ => apply ltq_true in H
    | H : ltq _ _ = false |- _ => apply ltq_false in H
    | H : Qle_bool _ _ = true |- _ => apply Qle_bool_iff in H
    | H : Qle_bool _ _ = false |- _ => apply leb_false in H
    | H : Qeq_bool _ _ = true |- _ => apply Qeq_bool_iff in H
    | H : Qeq_bool _ _ = false |- _ => apply eqb_false in H
    end ].

(** ** Boxes *)

Lemma min_element_ok l : l <> [] -> exists m, min_element l = Ok m /\ (forall y, In y l -> m <= y) /\ In m l.
Proof.
  destruct l as [|x l]; [congruence|]. intros _. unfold min_element. eexists. split; [reflexivity|]. revert x.
  induction l as [|z l IH]; intros x; cbn [fold_left].
  - split; [|now left]. intros y [->|[]]. lra.
  - destruct (ltq z x) eqn:E; qb; destruct (IH (if ltq z x then z else x)) as [A B].
    + apply ltq_true in E. rewrite E in A, B. apply ltq_true in E. split; [|destruct B as [B|B]; [right; left; auto|right; right; auto]].
      intros y [->|[->|I]]; try solve [apply A; simpl; auto]. assert (fold_left (fun m y0 => if ltq y0 m then y0 else m) l z <= z) by (apply A; now left). lra.
    + apply ltq_false in E. rewrite E in A, B. apply ltq_false in E. split; [|destruct B as [B|B]; [left; auto|right; right; auto]].
      intros y [->|[->|I]]; try solve [apply A; simpl; auto]. assert (fold_left (fun m y0 => if ltq y0 m then y0 else m) l x <= x) by (apply A; now left). lra.
Qed.
Lemma max_element_ok l : l <> [] -> exists m, max_element l = Ok m /\ (forall y, In y l -> y <= m) /\ In m l.
Proof.
  destruct l as [|x l]; [congruence|]. intros _. unfold max_element. eexists. split; [reflexivity|]. revert x.
  induction l as [|z l IH]; intros x; cbn [fold_left].
  - split; [|now left]. intros y [->|[]]. lra.
  - destruct (ltq x z) eqn:E; qb; destruct (IH (if ltq x z then z else x)) as [A B].
    + apply ltq_true in E. rewrite E in A, B. apply ltq_true in E. split; [|destruct B as [B|B]; [right; left; auto|right; right; auto]].
      intros y [->|[->|I]]; try solve [apply A; simpl; auto]. assert (z <= fold_left (fun m y0 => if ltq m y0 then y0 else m) l z) by (apply A; now left). lra.
    + apply ltq_false in E. rewrite E in A, B. apply ltq_false in E. split; [|destruct B as [B|B]; [left; auto|right; right; auto]].
      intros y [->|[->|I]]; try solve [apply A; simpl; auto]. assert (x <= fold_left (fun m y0 => if ltq m y0 then y0 else m) l x) by (apply A; now left). lra.
Qed.

Lemma box_of_range_ok (a m b : list pt) start n : start = len a -> n = len m -> m <> [] ->
  exists bx, box_of_range (map fst (a ++ m ++ b)) (map snd (a ++ m ++ b)) start n = Ok bx /\ smallest_box m bx.
Proof.
  unfold pt in *. intros -> -> N. unfold box_of_range. rewrite !map_app. rewrite !vslice_at by now rewrite len_map. cbn [bind].
  rewrite ?vslice_at by now rewrite len_map. cbn [bind].
  assert (Nx : map fst m <> []) by (destruct m; [congruence|discriminate]). assert (Ny : map snd m <> []) by (destruct m; [congruence|discriminate]).
  destruct (min_element_ok _ Nx) as (xl & E1 & A1 & B1). destruct (min_element_ok _ Ny) as (yl & E2 & A2 & B2).
  destruct (max_element_ok _ Nx) as (xh & E3 & A3 & B3). destruct (max_element_ok _ Ny) as (yh & E4 & A4 & B4).
  rewrite E1. cbn [bind]. rewrite E2. cbn [bind]. rewrite E3. cbn [bind]. rewrite E4. cbn [bind]. eexists. split; [reflexivity|].
  split.
  - intros p I. unfold inside_box. cbn [bxl byl bxh byh]. pose proof (in_map fst _ _ I) as Ix. pose proof (in_map snd _ _ I) as Iy.
    repeat split; [apply A1|apply A3|apply A2|apply A4]; assumption.
  - intros c C. cbn [bxl byl bxh byh]. apply in_map_iff in B1 as (p1 & <- & I1), B2 as (p2 & <- & I2), B3 as (p3 & <- & I3), B4 as (p4 & <- & I4).
    apply C in I1, I2, I3, I4. unfold inside_box in *. tauto.
Qed.

Lemma bd_box_ok d l : shows d l -> points l <> [] -> exists b, bd_box d = Ok b /\ smallest_box (points l) b.
Proof.
  intros S N. unfold bd_box. shw S. rewrite E. pose proof (len_pos (points l)). destruct (Z.leb_spec (len (points l)) 0) as [L|L].
  - assert (Z0 : len (points l) = 0%Z) by lia. now apply len0 in Z0.
  - rewrite A, B. destruct (box_of_range_ok [] (points l) [] 0 (len (points l)) eq_refl eq_refl N) as (b & Eb & Sb). cbn [app] in Eb. rewrite !app_nil_r in Eb. eauto.
Qed.
Lemma bd_box_none d l : shows d l -> points l = [] -> bd_box d = Ok no_box.
Proof. intros S N. unfold bd_box. shw S. now rewrite E, N. Qed.

Lemma Forall2_snoc {A B} (R : A -> B -> Prop) l m x y : Forall2 R l m -> R x y -> Forall2 R (l ++ [x]) (m ++ [y]).
Proof. intros F H. apply Forall2_app; auto. Qed.
Lemma bd_boxes_ok d l : shows d l ->
  exists bs, bd_boxes d = Ok bs /\ Forall2 (fun g b => if full g then smallest_box (verts g) b else b = no_box) l bs.
Proof.
  intros S. unfold bd_boxes. apply (each_poly_ok d l (fun l1 bs => Forall2 _ l1 bs)); auto. intros l1 g l2 s -> F.
  rewrite (count_mid d l1 g l2) by auto. cbn [bind]. unfold full. destruct (verts g) as [|v vs] eqn:V.
  - cbn. eexists. split; [reflexivity|]. apply Forall2_snoc; auto. now rewrite V.
  - rewrite <- V. assert (L : (0 < len (verts g))%Z) by (rewrite V, len_cons; pose proof (len_pos vs); lia).
    destruct (Z.leb_spec (len (verts g)) 0); [lia|]. destruct S as (A & B & _). rewrite A, B, points_mid.
    destruct (box_of_range_ok (points l1) (verts g) (points l2) _ _ eq_refl eq_refl) as (b & Eb & Sb); [rewrite V; discriminate|]. rewrite Eb. cbn [bind].
    eexists. split; [reflexivity|]. apply Forall2_snoc; auto. now rewrite V, <- V.
Qed.

(** ** Rings *)

Definition path (p : pt) (l : list pt) (z : pt) : list (pt * pt) := combine (p :: l) (l ++ [z]).
Lemma path_cons p w l z : path p (w :: l) z = (p, w) :: path w l z.
Proof. reflexivity. Qed.
Lemma path_snoc p l w z : path p (l ++ [w]) z = path p l w ++ [(w, z)].
Proof. revert p. induction l as [|x l IH]; intros p; [reflexivity|]. cbn [app]. now rewrite !path_cons, IH. Qed.
Lemma ring_path p l : ring (p :: l) = path p l p.
Proof. reflexivity. Qed.
Lemma ring_len l : length (ring l) = length l.
Proof. destruct l as [|p l]; [reflexivity|]. cbn [ring]. rewrite combine_length, app_length. cbn [length]. lia. Qed.

Lemma path_nth p l z i x y : nth_error (path p l z) i = Some (x, y) -> nth_error (p :: l ++ [z]) i = Some x /\ nth_error (p :: l ++ [z]) (S i) = Some y /\ (i <= length l)%nat.
Proof.
  revert p i. induction l as [|w l IH]; intros p i H.
  - destruct i as [|i]; cbn in *; [injection H as <- <-; repeat split; lia|destruct i; discriminate].
  - rewrite path_cons in H. destruct i as [|i]; cbn in H.
    + injection H as <- <-. repeat split. cbn. lia.
    + apply IH in H as (A & B & C). repeat split; auto. cbn. lia.
Qed.
Lemma ring_nth l i x y : nth_error (ring l) i = Some (x, y) ->
  nth_error l i = Some x /\ nth_error l (S i mod length l) = Some y.
Proof.
  destruct l as [|p l]; [destruct i; discriminate|]. rewrite ring_path. intros H. apply path_nth in H as (A & B & C).
  change (p :: l ++ [p]) with ((p :: l) ++ [p]) in *. rewrite nth_error_app1 in A by (cbn [length]; lia). split; auto. cbn [length] in *.
  destruct (Nat.eq_dec i (length l)) as [->|Ne].
  - rewrite Nat.mod_same by lia. rewrite nth_error_app2 in B by (cbn; lia). cbn [length] in B. rewrite Nat.sub_diag in B. exact B.
  - rewrite Nat.mod_small by lia. rewrite nth_error_app1 in B by (cbn; lia). exact B.
Qed.

Lemma vget_nth {A} (a m b : list A) i x j : nth_error m i = Some x -> j = (len a + Z.of_nat i)%Z -> vget (a ++ m ++ b) j = Ok x.
Proof.
  intros N ->. unfold vget, len. destruct (Z.ltb_spec (Z.of_nat (length a) + Z.of_nat i) 0); [lia|].
  rewrite nth_error_app2 by lia. replace (Z.to_nat (Z.of_nat (length a) + Z.of_nat i) - length a)%nat with i by lia.
  rewrite nth_error_app1 by (apply nth_error_Some; congruence). now rewrite N.
Qed.
Lemma vget_ring (a m b : list pt) ea x y eb : ring m = ea ++ (x, y) :: eb ->
  let i := len ea in let n := len m in let j := ((i + 1) mod n)%Z in
  vget (map fst (a ++ m ++ b)) (len a + i) = Ok (fst x) /\ vget (map snd (a ++ m ++ b)) (len a + i) = Ok (snd x) /\
  vget (map fst (a ++ m ++ b)) (len a + j) = Ok (fst y) /\ vget (map snd (a ++ m ++ b)) (len a + j) = Ok (snd y).
Proof.
  intros R i n j. assert (N : nth_error (ring m) (length ea) = Some (x, y)) by (rewrite R, nth_error_app2, Nat.sub_diag by lia; reflexivity).
  apply ring_nth in N as [N1 N2]. assert (M : m <> []) by (intros ->; destruct ea; discriminate).
  assert (J : j = Z.of_nat (S (length ea) mod length m)).
  { unfold j, i, n, len. rewrite Nat2Z.inj_mod. f_equal. lia. }
  rewrite !map_app. repeat split; eapply vget_nth; try (apply map_nth_error; eassumption); rewrite len_map; try reflexivity; now rewrite J.
Qed.

Lemma qsum_app {A} (f : A -> Q) l m : qsum f (l ++ m) == qsum f l + qsum f m.
Proof. unfold qsum. induction l; cbn [app fold_right]; [lra|]. rewrite IHl. lra. Qed.
Lemma path_telescope (g : pt -> Q) p l z : qsum (fun e => g (snd e) - g (fst e)) (path p l z) == g z - g p.
Proof. revert p. induction l as [|w l IH]; intros p; [cbn; lra|]. rewrite path_cons. cbn [qsum fold_right fst snd]. unfold qsum in IH. rewrite IH. lra. Qed.
Lemma ring_telescope (g : pt -> Q) l : qsum (fun e => g (snd e) - g (fst e)) (ring l) == 0.
Proof. destruct l as [|p l]; [reflexivity|]. rewrite ring_path, path_telescope. lra. Qed.
Lemma qsum_ext {A} (f g : A -> Q) l : (forall a, f a == g a) -> qsum f l == qsum g l.
Proof. intros H. unfold qsum. induction l; cbn [fold_right]; [lra|]. rewrite IHl, H. lra. Qed.
Lemma qsum_lin {A} (f g : A -> Q) k l : qsum (fun a => k * f a + g a) l == k * qsum f l + qsum g l.
Proof. unfold qsum. induction l; cbn [fold_right]; [lra|]. rewrite IHl. ring. Qed.

(** ** Area *)

Lemma area_ok (a m b : list pt) n start cc : n = len m -> start = len a ->
  exists v, signed_poly_area n (map fst (a ++ m ++ b)) (map snd (a ++ m ++ b)) start cc = Ok v /\ v == if cc then area m else - area m.
Proof.
  intros -> ->. unfold signed_poly_area. set (sign := if cc then 1 else - (1)).
  destruct m as [|p m'].
  { exists (0 / 2). split; [reflexivity|]. unfold area. cbn. destruct cc; reflexivity. }
  set (m := p :: m').
  match goal with |- context [for_up 0 ?n ?body ?s] =>
    destruct (for_list (ring m) (fun done v => v == sign * qsum (fun e => wedge e - (fst p * (snd (snd e) - snd (fst e)) - snd p * (fst (snd e) - fst (fst e)))) done) body n s) as (v & E & V)
  end.
  - unfold len. now rewrite ring_len.
  - cbn. lra.
  - intros ea [x y] eb s R IS. destruct (vget_ring a m b ea x y eb R) as (A1 & A2 & A3 & A4). cbv zeta.
    rewrite A1. cbn [bind]. rewrite A2. cbn [bind]. rewrite A3. cbn [bind]. rewrite A4. cbn [bind].
    unfold m at 1 2. rewrite !map_app. cbn [map app]. rewrite !vget_at by now rewrite len_map. cbn [bind]. rewrite ?vget_at by now rewrite len_map. cbn [bind].
    eexists. split; [reflexivity|]. rewrite qsum_app, IS. cbn [qsum fold_right fst snd wedge]. unfold wedge. cbn [fst snd]. ring.
  - rewrite E. cbn [bind]. eexists. split; [reflexivity|]. rewrite V. unfold area.
    assert (Z1 : qsum (fun e => wedge e - (fst p * (snd (snd e) - snd (fst e)) - snd p * (fst (snd e) - fst (fst e)))) (ring m) == qsum wedge (ring m)).
    { rewrite (qsum_ext _ (fun e => 1 * wedge e + ((fun q : pt => snd p * fst q - fst p * snd q) (snd e) - (fun q : pt => snd p * fst q - fst p * snd q) (fst e)))) by (intros e; cbn beta; ring).
      rewrite qsum_lin, (ring_telescope (fun q : pt => snd p * fst q - fst p * snd q)). ring. }
    rewrite Z1. unfold sign. destruct cc; field.
Qed.

Lemma path_rev p l z : qsum wedge (path z (rev l) p) == - qsum wedge (path p l z).
Proof.
  revert z. induction l as [|w l IH] using rev_ind; intros z.
  - cbn. unfold wedge. cbn [fst snd]. ring.
  - rewrite rev_app_distr. cbn [rev app]. rewrite path_cons, path_snoc, qsum_app. cbn [qsum fold_right]. unfold qsum in IH. rewrite IH. unfold qsum, wedge. cbn [fst snd]. ring.
Qed.
Lemma area_rev l : area (rev l) == - area l.
Proof.
  unfold area. destruct l as [|p l]; [reflexivity|]. rewrite ring_path. cbn [rev]. pose proof (path_rev p l p) as R.
  destruct (rev l) as [|w r]; cbn [app].
  - assert (qsum wedge (ring [p]) == - qsum wedge (path p l p)) as -> by (rewrite <- R; reflexivity). field.
  - rewrite ring_path, path_snoc, qsum_app. rewrite path_cons in R. cbn [qsum fold_right] in *. unfold qsum in *.
    assert (X : fold_right (fun a s => wedge a + s) 0 (path w r p) == - fold_right (fun a s => wedge a + s) 0 (path p l p) - wedge (p, w)) by lra.
    rewrite X. field.
Qed.
Lemma path_map f p l z : path (f p) (map f l) (f z) = map (fun e => (f (fst e), f (snd e))) (path p l z).
Proof. revert p. induction l as [|w l IH]; intros p; [reflexivity|]. cbn [map]. rewrite !path_cons, IH. reflexivity. Qed.
Lemma qsum_map {A B} (f : B -> Q) (h : A -> B) l : qsum f (map h l) = qsum (fun a => f (h a)) l.
Proof. induction l; cbn [map qsum fold_right]; [reflexivity|]. unfold qsum in *. now rewrite IHl. Qed.
Lemma area_trans t l : area (map (lt_apply t) l) == (a11 t * a22 t - a12 t * a21 t) * area l.
Proof.
  unfold area. destruct l as [|p l]; [cbn; field|]. cbn [map]. rewrite !ring_path, path_map, qsum_map.
  set (g := fun q : pt => lsx t * snd (lt_apply t q) - lsy t * fst (lt_apply t q)).
  assert (X : qsum (fun a => wedge (lt_apply t (fst a), lt_apply t (snd a))) (path p l p) == (a11 t * a22 t - a12 t * a21 t) * qsum wedge (path p l p)).
  { rewrite (qsum_ext _ (fun e => (a11 t * a22 t - a12 t * a21 t) * wedge e + (g (snd e) - g (fst e)))).
    - rewrite qsum_lin, path_telescope. ring.
    - intros e. unfold wedge, g, lt_apply. cbn [fst snd]. ring. }
  rewrite X. field.
Qed.

(** ** The nearest point of a segment *)

Lemma sq_pos (x : Q) : 0 <= x * x.
Proof. destruct (Qlt_le_dec x 0); [|now apply Qmult_le_0_compat]. assert (H : 0 <= (- x) * (- x)) by (apply Qmult_le_0_compat; lra). assert (E : x * x == (- x) * (- x)) by ring. rewrite E. exact H. Qed.
Lemma nearest_t (u v w : Q) : 0 < u ->
  let t := v / u in let t1 := if ltq t 0 then 0 else t in let t2 := if ltq 1 t1 then 1 else t1 in
  0 <= t2 <= 1 /\ forall s, 0 <= s <= 1 -> w - 2 * t2 * v + t2 * t2 * u <= w - 2 * s * v + s * s * u.
Proof.
  intros U. cbv zeta. assert (V : v == v / u * u) by (field; lra). set (t := v / u) in *. clearbody t.
  assert (K : forall t2 s, 0 <= (s - t2) * (s + t2 - 2 * t) -> w - 2 * t2 * v + t2 * t2 * u <= w - 2 * s * v + s * s * u).
  { intros t2 s H. assert (H' : 0 <= u * ((s - t2) * (s + t2 - 2 * t))) by (apply Qmult_le_0_compat; lra). rewrite V. nra. }
  destruct (ltq t 0) eqn:E1; qb.
  - change (ltq 1 0) with false. cbn [negb]. split; [lra|]. intros s I. apply K. nra.
  - destruct (ltq 1 t) eqn:E2; qb; split; try lra; intros s I; apply K.
    + assert (0 <= (1 - s) * (2 * t - s - 1)) by (apply Qmult_le_0_compat; lra). nra.
    + destruct (Qlt_le_dec s t).
      * assert (0 <= (t - s) * (t - s)) by (apply Qmult_le_0_compat; lra). nra.
      * assert (0 <= (s - t) * (s - t)) by (apply Qmult_le_0_compat; lra). nra.
Qed.

Lemma min_dist_seg_ok p a b : let r := min_dist_seg p a b in
  on_edge (fst r) (a, b) /\ snd r == distance2 p (fst r) /\ forall q, on_edge q (a, b) -> snd r <= distance2 p q.
Proof.
  cbv zeta. unfold min_dist_seg. set (aa := (fst b - fst a) * (fst b - fst a) + (snd b - snd a) * (snd b - snd a)).
  set (bb := (fst p - fst a) * (fst b - fst a) + (snd p - snd a) * (snd b - snd a)).
  set (w := (fst p - fst a) * (fst p - fst a) + (snd p - snd a) * (snd p - snd a)).
  assert (D : forall t, distance2 p (between a b t) == w - 2 * t * bb + t * t * aa) by (intros t; unfold distance2, between, w, aa, bb; cbn [fst snd]; ring).
  pose proof (sq_pos (fst b - fst a)) as Sx. pose proof (sq_pos (snd b - snd a)) as Sy.
  assert (AA : 0 <= aa) by (unfold aa; lra).
  set (t := if Qeq_bool aa 0 then 0 else bb / aa). set (t1 := if ltq t 0 then 0 else t). set (t2 := if ltq 1 t1 then 1 else t1).
  cbn [fst snd]. change (fst a + t2 * (fst b - fst a), snd a + t2 * (snd b - snd a)) with (between a b t2).
  assert (T : 0 <= t2 <= 1 /\ forall s, 0 <= s <= 1 -> w - 2 * t2 * bb + t2 * t2 * aa <= w - 2 * s * bb + s * s * aa).
  { destruct (Qeq_bool aa 0) eqn:E; qb.
    - subst t2 t1 t. cbn. split; [lra|]. intros s _. assert (X : (fst b - fst a) * (fst b - fst a) == 0 /\ (snd b - snd a) * (snd b - snd a) == 0) by (unfold aa in E; split; lra).
      destruct X as [X Y]. assert (X' : fst b - fst a == 0) by (destruct (Qmult_integral _ _ X); auto). assert (Y' : snd b - snd a == 0) by (destruct (Qmult_integral _ _ Y); auto).
      assert (B : bb == 0) by (unfold bb; rewrite X', Y'; ring). rewrite B, E. lra.
    - subst t2 t1 t. apply nearest_t. destruct (Q_dec 0 aa) as [[?|?]|?]; lra. }
  clearbody t2. destruct T as [T1 T2]. split; [exists t2; split; auto; split; reflexivity|]. split.
  - unfold distance2, between. cbn [fst snd]. reflexivity.
  - intros q (s & Is & Qx & Qy). assert (X : distance2 p q == distance2 p (between a b s)) by (unfold distance2; cbn [fst snd] in Qx, Qy; rewrite Qx, Qy; reflexivity).
    rewrite X. change ((fst p - (fst a + t2 * (fst b - fst a))) * (fst p - (fst a + t2 * (fst b - fst a))) + (snd p - (snd a + t2 * (snd b - snd a))) * (snd p - (snd a + t2 * (snd b - snd a)))) with (distance2 p (between a b t2)).
    rewrite !D. now apply T2.
Qed.

(** ** The last of the nearest *)

Section Nearest.
Context {X : Type}.
Variables (at_ : Z -> Z -> X -> Prop) (dist : X -> Q) (out : X -> pt).
Hypothesis at_same : forall p v x y, at_ p v x -> at_ p v y -> x = y.
Definition best_ok (dom : Z -> Z -> Prop) (best : option (Z * Z * pt * Q)) : Prop :=
  match best with
  | None => forall p v x, at_ p v x -> ~ dom p v
  | Some (p, v, o, m) => exists x, at_ p v x /\ dom p v /\ o = out x /\ m = dist x /\
      forall p' v' x', at_ p' v' x' -> dom p' v' -> m <= dist x' /\ (later p v p' v' -> m < dist x')
  end.
Lemma best_step dom dom' best p v x :
  best_ok dom best -> at_ p v x -> (forall p' v', dom' p' v' <-> dom p' v' \/ p' = p /\ v' = v) ->
  (forall p' v', dom p' v' -> later p' v' p v) ->
  best_ok dom' (match best with
     | Some (_, _, _, m) => if Qle_bool (dist x) m then Some (p, v, out x, dist x) else best
     | None => Some (p, v, out x, dist x) end).
Proof.
  intros B A Dm L. assert (NL : forall a b, dom a b -> ~ later p v a b) by (intros a b Hd K; apply L in Hd; unfold later in *; lia).
  destruct best as [[[[p0 v0] o0] m0]|].
  - destruct B as (x0 & A0 & D0 & -> & -> & H). destruct (Qle_bool (dist x) (dist x0)) eqn:E; qb.
    + exists x. split; auto. split; [apply Dm; auto|]. repeat split; auto.
      * apply Dm in H1 as [Hd|[-> ->]]; [|rewrite (at_same _ _ _ _ H0 A); lra]. destruct (H _ _ _ H0 Hd). lra.
      * intros K. apply Dm in H1 as [Hd|[-> ->]]; [now apply NL in K|unfold later in K; lia].
    + exists x0. split; auto. split; [apply Dm; auto|]. repeat split; auto.
      * apply Dm in H1 as [Hd|[-> ->]]; [now apply (H _ _ _ H0 Hd)|rewrite (at_same _ _ _ _ H0 A); lra].
      * intros K. apply Dm in H1 as [Hd|[-> ->]]; [now apply (H _ _ _ H0 Hd)|now rewrite (at_same _ _ _ _ H0 A)].
  - exists x. split; auto. split; [apply Dm; auto|]. repeat split; auto.
    + apply Dm in H0 as [Hd|[-> ->]]; [now apply B in H|rewrite (at_same _ _ _ _ H A); lra].
    + intros K. apply Dm in H0 as [Hd|[-> ->]]; [now apply B in H|unfold later in K; lia].
Qed.
Lemma best_ext dom dom' best : (forall p v x, at_ p v x -> (dom p v <-> dom' p v)) -> best_ok dom best -> best_ok dom' best.
Proof.
  intros H B. destruct best as [[[[p0 v0] o0] m0]|].
  - destruct B as (x0 & A0 & D0 & E1 & E2 & K). exists x0. split; auto. split; [now apply (H _ _ _ A0)|]. repeat split; auto; apply (H _ _ _ H0) in H1; now apply (K _ _ _ H0 H1).
  - intros p v x A Dm. apply (H _ _ _ A) in Dm. now apply (B _ _ _ A).
Qed.
End Nearest.

Lemma app_len_inj {A} (a a' : list A) x x' b b' : a ++ x :: b = a' ++ x' :: b' -> len a = len a' -> a = a' /\ x = x' /\ b = b'.
Proof.
  revert a'. induction a as [|y a IH]; intros [|y' a'] E L; rewrite ?len_cons in L; try (cbn in L; pose proof (len_pos a'); lia); try (cbn in L; pose proof (len_pos a); lia).
  - cbn in E. injection E; auto.
  - cbn in E. injection E as -> E. destruct (IH a' E) as (-> & -> & ->); auto. lia.
Qed.
Lemma vertex_same l p v x y : vertex_at l p v x -> vertex_at l p v y -> x = y.
Proof.
  intros (l1 & g & l2 & a & b & E & P & V & Iv) (l1' & g' & l2' & a' & b' & E' & P' & V' & Iv'). rewrite E in E'. apply app_len_inj in E' as (-> & -> & ->); [|congruence].
  rewrite V in V'. apply app_len_inj in V' as (_ & -> & _); [auto|congruence].
Qed.
Lemma edge_same l p v x y : edge_at l p v x -> edge_at l p v y -> x = y.
Proof.
  intros (l1 & g & l2 & a & b & E & P & V & Iv) (l1' & g' & l2' & a' & b' & E' & P' & V' & Iv'). rewrite E in E'. apply app_len_inj in E' as (-> & -> & ->); [|congruence].
  rewrite V in V'. apply app_len_inj in V' as (_ & -> & _); [auto|congruence].
Qed.

Section Search.
Context {X : Type}.
Variables (items : polygon -> list X) (dist : X -> Q) (out : X -> pt) (l : list polygon).
Definition item_at p v x := exists l1 g l2 a b, l = l1 ++ g :: l2 /\ p = len l1 /\ items g = a ++ x :: b /\ v = len a.
Lemma item_same p v x y : item_at p v x -> item_at p v y -> x = y.
Proof.
  intros (l1 & g & l2 & a & b & E & P & V & Iv) (l1' & g' & l2' & a' & b' & E' & P' & V' & Iv'). rewrite E in E'. apply app_len_inj in E' as (-> & -> & ->); [|congruence].
  rewrite V in V'. apply app_len_inj in V' as (_ & -> & _); [auto|congruence].
Qed.
Lemma item_range l1 g l2 p v x : l = l1 ++ g :: l2 -> item_at p v x -> p = len l1 -> (0 <= v < len (items g))%Z.
Proof.
  intros El (k1 & h & k2 & a & b & E & P & V & Iv) Pl. rewrite El in E. apply app_len_inj in E as (-> & -> & ->); [|congruence]. rewrite V, len_app, len_cons. pose proof (len_pos a). pose proof (len_pos b). lia.
Qed.
Lemma search_ok d (n_of : polygon -> Z) body : shows d l ->
  (forall g, len (items g) = n_of g) ->
  (forall l1 g l2 a x b best, l = l1 ++ g :: l2 -> items g = a ++ x :: b ->
     body (len l1) (len (points l1)) (n_of g) (len a) best = Ok (match best with
       | Some (_, _, _, m) => if Qle_bool (dist x) m then Some (len l1, len a, out x, dist x) else best
       | None => Some (len l1, len a, out x, dist x) end)) ->
  (forall l1 g l2, l = l1 ++ g :: l2 -> vget (num_verts d) (len l1) = Ok (n_of g)) ->
  exists best, each_poly d (fun p start best => n <- vget (num_verts d) p ;; for_up 0 n (fun v best => body p start n v best) best) None = Ok best /\
    best_ok item_at dist out (fun _ _ => True) best.
Proof.
  intros S Nn Bd Vn.
  destruct (each_poly_ok d l (fun l1 best => best_ok item_at dist out (fun p v => (p < len l1)%Z) best)
    (fun p start best => n <- vget (num_verts d) p ;; for_up 0 n (fun v best => body p start n v best) best) None) as (best & E & B).
  - exact S.
  - intros p v x (l1 & g & l2 & a & b & El & P & _) L. pose proof (len_pos l1). change (len (@nil polygon)) with 0%Z in L. lia.
  - intros l1 g l2 s El B. rewrite (Vn l1 g l2 El). cbn [bind].
    destruct (for_list (items g) (fun a best => best_ok item_at dist out (fun p v => (p < len l1 \/ p = len l1 /\ v < len a)%Z) best) (fun v best => body (len l1) (len (points l1)) (n_of g) v best) (n_of g) s) as (s' & E' & B').
    + now rewrite Nn.
    + eapply best_ext; [|exact B]. intros p v x A. cbn beta. split; [auto|]. intros [?|[-> Hv]]; auto. destruct (item_range _ _ _ _ _ _ El A eq_refl). change (len (@nil X)) with 0%Z in Hv. lia.
    + intros a x b s0 V0 B0. rewrite (Bd l1 g l2 a x b s0 El V0). eexists. split; [reflexivity|].
      eapply best_step; [exact item_same|exact B0| | |].
      * exists l1, g, l2, a, b. auto.
      * intros p' v'. cbn beta. rewrite len_snoc. lia.
      * intros p' v' Hd. cbn beta in Hd. unfold later. lia.
    + exists s'. split; auto. eapply best_ext; [|exact B']. intros p v x A. cbn beta. rewrite len_snoc. split; [lia|]. intros Hp.
      destruct (Z.eq_dec p (len l1)) as [->|]; [|lia]. right. split; auto. now apply (item_range _ _ _ _ _ _ El A eq_refl).
  - exists best. split; auto. eapply best_ext; [|exact B]. intros p v x (l1 & g & l2 & a & b & El & -> & _). cbn beta. rewrite El, len_app, len_cons. pose proof (len_pos l2). split; auto. lia.
Qed.
End Search.

Lemma find_vertex_ok d l q : shows d l ->
  exists best, find_closest_vertex d q = Ok best /\ best_ok (vertex_at l) (dist2 q) (fun x => x) (fun _ _ => True) best.
Proof.
  intros S. unfold find_closest_vertex.
  apply (search_ok verts (dist2 q) (fun x => x) l d (fun g => len (verts g)) (fun p start n v best =>
      x <- vget (xv d) (start + v)%Z ;; y <- vget (yv d) (start + v)%Z ;;
      let dist := dist2 q (x, y) in
      match best with
      | Some (_, _, _, m) => if Qle_bool dist m then Ok (Some (p, v, (x, y), dist)) else Ok best
      | None => Ok (Some (p, v, (x, y), dist))
      end)); auto.
  - intros l1 g l2 a x b best El V. assert (V' : nth_error (verts g) (length a) = Some x) by (rewrite V, nth_error_app2, Nat.sub_diag by lia; reflexivity).
    destruct S as (A & B & _). rewrite A, B, El, points_mid, !map_app.
    rewrite (vget_nth _ (map fst (verts g)) _ (length a) (fst x)) by (try (apply map_nth_error; exact V'); now rewrite len_map). cbn [bind].
    rewrite (vget_nth _ (map snd (verts g)) _ (length a) (snd x)) by (try (apply map_nth_error; exact V'); now rewrite len_map). cbn [bind].
    cbv zeta. rewrite <- surjective_pairing. destruct best as [[[[p0 v0] o0] m0]|]; [|reflexivity]. now destruct (Qle_bool (dist2 q x) m0).
  - intros l1 g l2 El. subst l. now apply (count_mid d l1 g l2).
Qed.
Lemma find_edge_ok d l q : shows d l ->
  exists best, find_closest_edge d q = Ok best /\ best_ok (edge_at l) (fun e => snd (min_dist_seg q (fst e) (snd e))) (fun e => fst (min_dist_seg q (fst e) (snd e))) (fun _ _ => True) best.
Proof.
  intros S. unfold find_closest_edge.
  apply (search_ok (fun g => ring (verts g)) (fun e => snd (min_dist_seg q (fst e) (snd e))) (fun e => fst (min_dist_seg q (fst e) (snd e))) l d (fun g => len (verts g)) (fun p start n v best =>
      let j := (start + (v + 1) mod n)%Z in
      bx <- vget (xv d) (start + v)%Z ;; by_ <- vget (yv d) (start + v)%Z ;; ex <- vget (xv d) j ;; ey <- vget (yv d) j ;;
      let r := min_dist_seg q (bx, by_) (ex, ey) in
      match best with
      | Some (_, _, _, m) => if Qle_bool (snd r) m then Ok (Some (p, v, fst r, snd r)) else Ok best
      | None => Ok (Some (p, v, fst r, snd r))
      end)); auto.
  - intros g. unfold len. now rewrite ring_len.
  - intros l1 g l2 a [x y] b best El V. destruct (vget_ring (points l1) (verts g) (points l2) a x y b V) as (A1 & A2 & A3 & A4).
    destruct S as (A & B & _). rewrite A, B, El, points_mid. cbv zeta.
    rewrite A1. cbn [bind]. rewrite A2. cbn [bind]. rewrite A3. cbn [bind]. rewrite A4. cbn [bind]. rewrite <- !surjective_pairing. cbn [fst snd].
    destruct best as [[[[p0 v0] o0] m0]|]; [|reflexivity]. now destruct (Qle_bool (snd (min_dist_seg q x y)) m0).
  - intros l1 g l2 El. subst l. now apply (count_mid d l1 g l2).
Qed.

(** ** Points in polygons *)

(** Whether an edge is crossed by the ray upwards. *)
Definition up (q : pt) (e : pt * pt) : bool :=
  let '(a, b) := e in
  let '(a, b) := if ltq (fst b) (fst a) then (b, a) else (a, b) in
  Qle_bool (fst a) (fst q) && ltq (fst q) (fst b) && ltq ((snd q - snd a) * (fst b - fst a) - (fst q - fst a) * (snd b - snd a)) 0.

Definition cross (q a b : pt) : Q := (snd q - snd a) * (fst b - fst a) - (fst q - fst a) * (snd b - snd a).
Lemma bool_eq (a b : bool) : (a = true <-> b = true) -> a = b.
Proof. destruct a, b; intros [A B]; auto; symmetry; auto. Qed.
Lemma cross_swap q a b : cross q b a == - cross q a b.
Proof. unfold cross. ring. Qed.

Lemma up_val q a b : up q (a, b) =
  (Qle_bool (fst a) (fst q) && negb (Qle_bool (fst b) (fst q)) && ltq (cross q a b) 0) ||
  (negb (Qle_bool (fst a) (fst q)) && Qle_bool (fst b) (fst q) && ltq 0 (cross q a b)).
Proof.
  unfold up. destruct (ltq (fst b) (fst a)) eqn:E; qb.
  - change ((snd q - snd b) * (fst a - fst b) - (fst q - fst b) * (snd a - snd b)) with (cross q b a). fold (ltq (fst q) (fst a)).
    replace (ltq (cross q b a) 0) with (ltq 0 (cross q a b)).
    2: { apply bool_eq. rewrite !ltq_true, cross_swap. split; lra. }
    replace (Qle_bool (fst a) (fst q) && negb (Qle_bool (fst b) (fst q))) with false.
    + cbn [andb orb]. rewrite (andb_comm (Qle_bool (fst b) (fst q))). reflexivity.
    + symmetry. destruct (Qle_bool (fst a) (fst q)) eqn:A, (Qle_bool (fst b) (fst q)) eqn:B; auto. qb. lra.
  - change ((snd q - snd a) * (fst b - fst a) - (fst q - fst a) * (snd b - snd a)) with (cross q a b). fold (ltq (fst q) (fst b)).
    replace (negb (Qle_bool (fst a) (fst q)) && Qle_bool (fst b) (fst q)) with false; [now rewrite orb_false_r|].
    symmetry. destruct (Qle_bool (fst a) (fst q)) eqn:A, (Qle_bool (fst b) (fst q)) eqn:B; auto. qb. lra.
Qed.

Lemma x_at_cross q a b : ~ snd a == snd b -> Cut.Spec.x_at a b (snd q) - fst q == cross q a b / (snd b - snd a).
Proof. intros H. unfold Cut.Spec.x_at, cross. field. lra. Qed.
Lemma left_val q a b : Z.odd (Cut.Spec.crossing q (a, b)) =
  (Qle_bool (snd a) (snd q) && negb (Qle_bool (snd b) (snd q)) && ltq (cross q a b) 0) ||
  (negb (Qle_bool (snd a) (snd q)) && Qle_bool (snd b) (snd q) && ltq 0 (cross q a b)).
Proof.
  unfold Cut.Spec.crossing. change Cut.Model.ltq with ltq.
  change (ltq (snd q) (snd a)) with (negb (Qle_bool (snd a) (snd q))). change (ltq (snd q) (snd b)) with (negb (Qle_bool (snd b) (snd q))).
  destruct (Qle_bool (snd a) (snd q)) eqn:A, (Qle_bool (snd b) (snd q)) eqn:B; cbn [negb andb orb]; try reflexivity.
  - qb. rewrite ?orb_false_r. replace (ltq (Cut.Spec.x_at a b (snd q)) (fst q)) with (ltq (cross q a b) 0); [now destruct (ltq _ _)|].
    apply bool_eq. rewrite !ltq_true. assert (N : ~ snd a == snd b) by lra. pose proof (x_at_cross q a b N) as X.
    assert (Y : cross q a b == (Cut.Spec.x_at a b (snd q) - fst q) * (snd b - snd a)) by (rewrite X; field; lra). rewrite Y. split; intros H; nra.
  - qb. replace (ltq (Cut.Spec.x_at a b (snd q)) (fst q)) with (ltq 0 (cross q a b)); [now destruct (ltq _ _)|].
    apply bool_eq. rewrite !ltq_true. assert (N : ~ snd a == snd b) by lra. pose proof (x_at_cross q a b N) as X.
    assert (Y : cross q a b == (Cut.Spec.x_at a b (snd q) - fst q) * (snd b - snd a)) by (rewrite X; field; lra). rewrite Y. split; intros H; nra.
Qed.

(** In the quarter to the upper left. *)
Definition quarter (q a : pt) : bool := Qle_bool (fst a) (fst q) && ltq (snd q) (snd a).

Lemma cross_on_x q a b : (fst a <= fst q < fst b \/ fst b <= fst q < fst a) -> cross q a b == 0 -> on_edge q (a, b).
Proof.
  intros I Z. exists ((fst q - fst a) / (fst b - fst a)). cbn [fst snd]. unfold cross in Z. split.
  - destruct I.
    + split; [apply Qle_shift_div_l; lra|apply Qle_shift_div_r; lra].
    + assert (E : (fst q - fst a) / (fst b - fst a) == (fst a - fst q) / (fst a - fst b)) by (field; lra). rewrite E. split; [apply Qle_shift_div_l; lra|apply Qle_shift_div_r; lra].
  - unfold between, peq. cbn [fst snd]. split; [field; lra|].
    assert (E : snd a + (fst q - fst a) / (fst b - fst a) * (snd b - snd a) == snd a + (fst q - fst a) * (snd b - snd a) / (fst b - fst a)) by (field; lra).
    rewrite E. assert (E2 : (fst q - fst a) * (snd b - snd a) == (snd q - snd a) * (fst b - fst a)) by lra. rewrite E2. field. lra.
Qed.
Lemma cross_on_y q a b : (snd a <= snd q < snd b \/ snd b <= snd q < snd a) -> cross q a b == 0 -> on_edge q (a, b).
Proof.
  intros I Z. exists ((snd q - snd a) / (snd b - snd a)). cbn [fst snd]. unfold cross in Z. split.
  - destruct I.
    + split; [apply Qle_shift_div_l; lra|apply Qle_shift_div_r; lra].
    + assert (E : (snd q - snd a) / (snd b - snd a) == (snd a - snd q) / (snd a - snd b)) by (field; lra). rewrite E. split; [apply Qle_shift_div_l; lra|apply Qle_shift_div_r; lra].
  - unfold between, peq. cbn [fst snd]. split; [|field; lra].
    assert (E : fst a + (snd q - snd a) / (snd b - snd a) * (fst b - fst a) == fst a + (snd q - snd a) * (fst b - fst a) / (snd b - snd a)) by (field; lra).
    rewrite E. assert (E2 : (snd q - snd a) * (fst b - fst a) == (fst q - fst a) * (snd b - snd a)) by lra. rewrite E2. field. lra.
Qed.
Lemma on_cross q a b : on_edge q (a, b) -> cross q a b == 0.
Proof. intros (t & _ & X & Y). unfold between in *. cbn [fst snd] in *. unfold cross. rewrite X, Y. ring. Qed.

Lemma edge_parity q a b : ~ on_edge q (a, b) ->
  xorb (up q (a, b)) (Z.odd (Cut.Spec.crossing q (a, b))) = xorb (quarter q a) (quarter q b).
Proof.
  intros N. rewrite up_val, left_val. unfold quarter.
  assert (Nx : fst a <= fst q < fst b \/ fst b <= fst q < fst a -> ~ cross q a b == 0) by (intros I Z; apply N; now apply cross_on_x).
  assert (Ny : snd a <= snd q < snd b \/ snd b <= snd q < snd a -> ~ cross q a b == 0) by (intros I Z; apply N; now apply cross_on_y).
  assert (D : cross q a b == (fst b - fst q) * (snd q - snd a) + (fst q - fst a) * (snd q - snd b)) by (unfold cross; ring).
  set (c := cross q a b) in *. clearbody c. change (ltq (snd q) (snd a)) with (negb (Qle_bool (snd a) (snd q))). change (ltq (snd q) (snd b)) with (negb (Qle_bool (snd b) (snd q))). clear N.
  destruct (Qle_bool (fst a) (fst q)) eqn:E1, (Qle_bool (fst b) (fst q)) eqn:E2, (Qle_bool (snd a) (snd q)) eqn:E3, (Qle_bool (snd b) (snd q)) eqn:E4; cbn [andb orb negb xorb];
    try reflexivity; qb;
    destruct (ltq c 0) eqn:C1, (ltq 0 c) eqn:C2; cbn [andb orb negb xorb]; try reflexivity; qb; exfalso;
    try lra;
    try (assert (Z : ~ c == 0) by (first [apply Nx; lra | apply Ny; lra])); clear Nx Ny.
  all: set (u1 := fst b - fst q) in *; set (u2 := snd q - snd a) in *; set (u3 := fst q - fst a) in *; set (u4 := snd q - snd b) in *;
    first [assert (0 <= u1) by (unfold u1; lra) | assert (0 <= - u1) by (unfold u1; lra)]; first [assert (0 <= u2) by (unfold u2; lra) | assert (0 <= - u2) by (unfold u2; lra)];
    first [assert (0 <= u3) by (unfold u3; lra) | assert (0 <= - u3) by (unfold u3; lra)]; first [assert (0 <= u4) by (unfold u4; lra) | assert (0 <= - u4) by (unfold u4; lra)];
    clearbody u1 u2 u3 u4;
    repeat match goal with
    | A : 0 <= ?x, B : 0 <= ?y |- _ => match x with context [u1] => match y with context [u2] => pose proof (Qmult_le_0_compat x y A B); clear A B end | context [u3] => match y with context [u4] => pose proof (Qmult_le_0_compat x y A B); clear A B end end
    end; lra.
Qed.

Lemma on_edge_swap q a b : on_edge q (a, b) -> on_edge q (b, a).
Proof.
  intros (t & I & X & Y). cbn [fst snd] in *. exists (1 - t). split; [lra|]. unfold between in *. cbn [fst snd] in *. split; cbn [fst snd]; [rewrite X|rewrite Y]; ring.
Qed.
Lemma between_le (u v t : Q) : 0 <= t <= 1 -> u <= v -> u <= u + t * (v - u) <= v.
Proof. intros I L. assert (0 <= t * (v - u)) by (apply Qmult_le_0_compat; lra). assert (0 <= (1 - t) * (v - u)) by (apply Qmult_le_0_compat; lra). split; [lra|nra]. Qed.
Lemma between_ge (u v t : Q) : 0 <= t <= 1 -> v <= u -> v <= u + t * (v - u) <= u.
Proof. intros I L. assert (0 <= t * (u - v)) by (apply Qmult_le_0_compat; lra). assert (0 <= (1 - t) * (u - v)) by (apply Qmult_le_0_compat; lra). split; nra. Qed.

Definition sorted_edge (x y : Q) (a b : pt) (s : bool) : bool * bool :=
  if ltq x (fst a) || ltq (fst b) x then (false, s)
  else if Qeq_bool (fst a) (fst b) then
    let lo := if ltq (snd b) (snd a) then snd b else snd a in
    let hi := if ltq (snd a) (snd b) then snd b else snd a in
    (Qle_bool lo y && Qle_bool y hi, s)
  else
    let det := (y - snd a) * (fst b - fst a) - (x - fst a) * (snd b - snd a) in
    if Qeq_bool det 0 then (true, s)
    else (false, if ltq x (fst b) && ltq det 0 then negb s else s).
Lemma sorted_edge_ok q a b s : fst a <= fst b ->
  let r := sorted_edge (fst q) (snd q) a b s in
  (fst r = true <-> on_edge q (a, b)) /\
  (fst r = false -> snd r = xorb s (Qle_bool (fst a) (fst q) && ltq (fst q) (fst b) && ltq (cross q a b) 0)).
Proof.
  intros L. cbv zeta. unfold sorted_edge. destruct (ltq (fst q) (fst a) || ltq (fst b) (fst q)) eqn:O.
  - cbn [fst snd]. split.
    + split; [discriminate|]. intros (t & I & X & _). cbn [fst snd between] in X. destruct (between_le (fst a) (fst b) t I L).
      apply orb_true_iff in O as [O|O]; qb; lra.
    + intros _. apply orb_true_iff in O as [O|O]; qb.
      * assert (Qle_bool (fst a) (fst q) = false) as -> by (apply leb_false; lra). now rewrite xorb_false_r.
      * assert (ltq (fst q) (fst b) = false) as -> by (apply ltq_false; lra). rewrite andb_false_r. now rewrite xorb_false_r.
  - apply orb_false_iff in O as [O1 O2]. qb. destruct (Qeq_bool (fst a) (fst b)) eqn:V; qb.
    + cbn [fst snd]. split.
      * rewrite andb_true_iff, !Qle_bool_iff. split.
        -- intros [Y1 Y2]. destruct (ltq (snd b) (snd a)) eqn:E1, (ltq (snd a) (snd b)) eqn:E2; qb; try lra.
           ++ exists ((snd a - snd q) / (snd a - snd b)). cbn [fst snd]. split; [split; [apply Qle_shift_div_l; lra|apply Qle_shift_div_r; lra]|].
              unfold between. split; cbn [fst snd]; [|field; lra]. assert (Z : fst b - fst a == 0) by lra. rewrite Z. lra.
           ++ exists ((snd q - snd a) / (snd b - snd a)). cbn [fst snd]. split; [split; [apply Qle_shift_div_l; lra|apply Qle_shift_div_r; lra]|].
              unfold between. split; cbn [fst snd]; [|field; lra]. assert (Z : fst b - fst a == 0) by lra. rewrite Z. lra.
           ++ exists 0. cbn [fst snd]. split; [lra|]. unfold between. split; cbn [fst snd]; lra.
        -- intros (t & I & _ & Y). unfold between in Y. cbn [fst snd] in Y.
           destruct (ltq (snd b) (snd a)) eqn:E1, (ltq (snd a) (snd b)) eqn:E2; qb; try lra.
           ++ destruct (between_ge (snd a) (snd b) t I); lra.
           ++ destruct (between_le (snd a) (snd b) t I); lra.
           ++ destruct (between_le (snd a) (snd b) t I); lra.
      * intros _. assert (ltq (fst q) (fst b) = false) as -> by (apply ltq_false; lra). rewrite andb_false_r. now rewrite xorb_false_r.
    + change ((snd q - snd a) * (fst b - fst a) - (fst q - fst a) * (snd b - snd a)) with (cross q a b). cbv zeta.
      destruct (Qeq_bool (cross q a b) 0) eqn:Dt; cbn [fst snd]; qb.
      * split; [|discriminate]. split; auto. intros _.
        destruct (Qlt_le_dec (fst q) (fst b)) as [Hl|Hl]; [apply cross_on_x; auto; left; split; auto|].
        exists 1. cbn [fst snd]. split; [lra|]. assert (Qx : fst q == fst b) by lra. unfold between. split; cbn [fst snd]; [lra|].
        unfold cross in Dt. rewrite Qx in Dt. assert (Dt' : (fst b - fst a) * (snd q - snd b) == 0) by nra. apply Qmult_integral in Dt' as [?|?]; lra.
      * split; [split; [discriminate|]; intros H; apply on_cross in H; contradiction|]. intros _.
        assert (Qle_bool (fst a) (fst q) = true) as -> by (apply Qle_bool_iff; lra). cbn [andb].
        destruct (ltq (fst q) (fst b) && ltq (cross q a b) 0); now destruct s.
Qed.
Lemma point_edge_ok q a b s :
  let r := point_edge (fst q) (snd q) a b s in
  (fst r = true <-> on_edge q (a, b)) /\ (fst r = false -> snd r = xorb s (up q (a, b))).
Proof.
  cbv zeta. unfold point_edge, up. destruct (ltq (fst b) (fst a)) eqn:E; qb.
  - destruct (sorted_edge_ok q b a s) as [A B]; [lra|]. split; [|exact B]. rewrite <- (conj (on_edge_swap q a b) (on_edge_swap q b a) : on_edge q (a, b) <-> on_edge q (b, a)) in A. exact A.
  - destruct (sorted_edge_ok q a b s E) as [A B]. split; [exact A|exact B].
Qed.

Definition parity (f : pt * pt -> bool) (l : list (pt * pt)) : bool := fold_right (fun e s => xorb (f e) s) false l.
Lemma parity_snoc f l e : parity f (l ++ [e]) = xorb (parity f l) (f e).
Proof. unfold parity. induction l as [|x l IH]; cbn [app fold_right]; [now rewrite xorb_false_r, xorb_false_l|]. rewrite IH. now rewrite xorb_assoc. Qed.

Lemma point_loop q (m : list pt) : exists r, point_in_poly (fst q) (snd q) (map fst m) (map snd m) = Ok r /\
  (r = true <-> (exists e, In e (ring m) /\ on_edge q e) \/ parity (up q) (ring m) = true).
Proof.
  unfold point_in_poly.
  match goal with |- context [for_up 0 ?n ?body ?s0] =>
    destruct (for_list (ring m) (fun done s => (fst s = true <-> exists e, In e done /\ on_edge q e) /\ (fst s = false -> snd s = parity (up q) done)) body n s0) as (v & E & V)
  end.
  - unfold len. now rewrite map_length, ring_len.
  - cbn [fst snd]. split; [|reflexivity]. split; [discriminate|intros (e & [] & _)].
  - intros ea [x y] eb [o s] R [I1 I2]. cbn [fst snd] in *. destruct o.
    + eexists. split; [reflexivity|]. split; [|discriminate]. split; auto. intros _. destruct (proj1 I1 eq_refl) as (e & Ie & Oe). exists e. split; auto. apply in_or_app. auto.
    + pose proof (vget_ring [] m [] ea x y eb R) as K. cbv zeta in K. cbn [app] in K. rewrite !app_nil_r in K. change (len (@nil pt)) with 0%Z in K. rewrite !Z.add_0_l in K. destruct K as (A1 & A2 & A3 & A4).
      cbv zeta. assert (Lm : Z.of_nat (length (map fst m)) = len m) by (unfold len; now rewrite map_length). rewrite Lm. rewrite A1. cbn [bind]. rewrite A2. cbn [bind]. rewrite A3. cbn [bind]. rewrite A4. cbn [bind]. rewrite <- !surjective_pairing.
      eexists. split; [reflexivity|]. destruct (point_edge_ok q x y s) as [B1 B2]. split.
      * rewrite B1. split.
        -- intros H. exists (x, y). split; auto. apply in_or_app. right. now left.
        -- intros (e & Ie & Oe). apply in_app_or in Ie as [Ie|[<-|[]]]; auto. exfalso. assert (false = true) by (apply I1; eauto). discriminate.
      * intros H. rewrite (B2 H), (I2 eq_refl), parity_snoc. reflexivity.
  - rewrite E. cbn [bind]. eexists. split; [reflexivity|]. destruct V as [V1 V2]. destruct v as [o s]. cbn [fst snd] in *. destruct o; cbn [orb].
    + split; auto. intros _. left. now apply V1.
    + rewrite V2 by auto. split; auto. intros [H|H]; auto. apply V1 in H. discriminate.
Qed.

Lemma path_parity q p l z : (forall e, In e (path p l z) -> ~ on_edge q e) ->
  xorb (parity (up q) (path p l z)) (Z.odd (Cut.Spec.sumz (Cut.Spec.crossing q) (path p l z))) = xorb (quarter q p) (quarter q z).
Proof.
  revert p. induction l as [|w l IH]; intros p N.
  - change (path p [] z) with [(p, z)] in *. cbn [parity fold_right Cut.Spec.sumz]. rewrite xorb_false_r, Z.add_0_r. apply edge_parity, N. now left.
  - rewrite path_cons in *. cbn [parity fold_right Cut.Spec.sumz]. rewrite Z.odd_add. fold (parity (up q) (path w l z)). fold (Cut.Spec.sumz (Cut.Spec.crossing q) (path w l z)).
    specialize (IH w (fun e I => N e (or_intror I))). pose proof (edge_parity q p w (N _ (or_introl eq_refl))) as E.
    destruct (up q (p, w)), (Z.odd (Cut.Spec.crossing q (p, w))), (parity (up q) (path w l z)), (Z.odd (Cut.Spec.sumz (Cut.Spec.crossing q) (path w l z))), (quarter q p), (quarter q w), (quarter q z); cbn in *; congruence.
Qed.
Lemma point_in_poly_ok q (m : list pt) : exists r, point_in_poly (fst q) (snd q) (map fst m) (map snd m) = Ok r /\ (r = true <-> in_or_on m q).
Proof.
  destruct (point_loop q m) as (r & E & H). exists r. split; auto. rewrite H. unfold in_or_on.
  destruct m as [|p m]; [reflexivity|].
  change (Cut.Spec.winding q (p :: m)) with (Cut.Spec.sumz (Cut.Spec.crossing q) (path p m p)). rewrite ring_path.
  assert (K : (forall e, In e (path p m p) -> ~ on_edge q e) -> parity (up q) (path p m p) = Z.odd (Cut.Spec.sumz (Cut.Spec.crossing q) (path p m p))).
  { intros N. pose proof (path_parity q p m p N) as X. rewrite xorb_nilpotent in X. now apply xorb_eq. }
  assert (Dec : forall e, {on_edge q e} + {~ on_edge q e}).
  { intros [a b]. destruct (fst (point_edge (fst q) (snd q) a b false)) eqn:P; [left; now apply (point_edge_ok q a b false)|right; intros O; apply (point_edge_ok q a b false) in O; congruence]. }
  destruct (Exists_dec (on_edge q) (path p m p) Dec) as [X|X].
  - apply Exists_exists in X as (e & Ie & Oe). split; intros _; left; eauto.
  - assert (N : forall e, In e (path p m p) -> ~ on_edge q e) by (intros e Ie Oe; apply X, Exists_exists; eauto). rewrite (K N). reflexivity.
Qed.
