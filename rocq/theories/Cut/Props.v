(** C68, C69: polygons cut to a window, and edges that meet a box. *)
From Coq Require Import List ZArith QArith Bool Lia Lqa Permutation.
From Verif Require Import Lib.Base Lib.Lists Cut.Model Cut.Spec Cut.Proofs Cut.Cycles Cut.HProofs Cut.WProofs Cut.EProofs.
Import ListNotations.
Open Scope Q_scope.

(** ** Cutting to a window *)

(** Polygons of any shape and number (concave, self-crossing, with vertices or
    edges on the border, some without vertices), any window, any order that the
    sort gives to points that tie: the cut ends without an access out of bounds
    and gives polygons that have vertices; the counts add up. The vertices are in
    the window, and they are vertices of the input or on the border. No vertex
    strictly inside is lost. The cut polygons wind around every point strictly
    inside the window as often as the given ones do, and around no point outside. *)
Theorem cut_poly_exact sort (SORT : forall l, Permutation (sort l) l) counts pts xll yll xur yur :
  list_sum counts = length pts ->
  exists pts' counts', cut_poly sort counts pts xll yll xur yur = Ok (pts', counts') /\
    list_sum counts' = length pts' /\ Forall (fun n => (0 < n)%nat) counts' /\
    (forall q, In q pts' -> inside xll yll xur yur q /\ (In q pts \/ on_border xll yll xur yur q)) /\
    (forall q, In q pts -> strictly_inside xll yll xur yur q -> In q pts') /\
    (forall q, strictly_inside xll yll xur yur q -> windings q (polygons counts' pts') = windings q (polygons counts pts)) /\
    (forall q, ~ inside xll yll xur yur q -> windings q (polygons counts' pts') = 0%Z).
Proof.
  intros E. destruct (polygons_concat counts pts E) as (EC & EM).
  destruct (cut_poly_ok sort SORT (polygons counts pts) xll yll xur yur) as (ps & R & NE & V & K & W). rewrite EC, EM in R.
  exists (concat ps), (map (@length pt) ps). rewrite EC in V, K. rewrite polygons_of. split; [exact R|]. split.
  { clear. induction ps as [|p ps IH]; [reflexivity|]. cbn [map concat list_sum fold_right]. rewrite app_length. cbn [list_sum fold_right] in *. unfold list_sum in IH. now rewrite IH. }
  split. { apply Forall_forall. intros n I. apply in_map_iff in I. destruct I as (p & <- & I). apply NE in I. destruct p; [contradiction|cbn [length]; lia]. }
  split; auto. split; auto. split; auto. intros q O. rewrite windings_esum.
  assert (FLAT : forall nx ny H g, additive nx ny H g -> (forall x, inside xll yll xur yur x -> H <= dot nx ny x) -> sumz (esum g) ps = 0%Z).
  { intros nx ny H g (G & _) IN. apply sumz_zero. intros p I. unfold esum. apply sumz_zero. intros [a b] J. unfold edges in J. destruct p as [|p0 p]; [destruct J|].
    assert (IA : In a (p0 :: p)) by (eapply in_combine_l; eauto). assert (IB : In b (p0 :: p)).
    { apply in_combine_r in J. apply in_app_iff in J. destruct J as [J|[<-|[]]]; [now right|now left]. }
    apply G; apply IN; apply V; apply in_concat; eauto. }
  unfold inside in O. destruct (Qlt_le_dec (fst q) xll) as [A|A].
  { apply (FLAT 1 0 xll); [apply gl_additive; intros; lra|]. intros x (X & _). unfold dot. lra. }
  destruct (Qlt_le_dec xur (fst q)) as [B|B].
  { assert (Z0 : sumz (esum (gr q)) ps = 0%Z). { apply (FLAT (-1 # 1) 0 (- xur)); [apply gr_additive; intros; lra|]. intros x (X & _). unfold dot. lra. }
    rewrite sum_gr in Z0. lia. }
  destruct (Qlt_le_dec (snd q) yll) as [C|C].
  { apply (FLAT 0 1 yll); [apply gl_additive; intros; lra|]. intros x (_ & X). unfold dot. lra. }
  destruct (Qlt_le_dec yur (snd q)) as [D|D]; [|exfalso; apply O; lra].
  apply (FLAT 0 (-1 # 1) (- yur)); [apply gl_additive; intros; lra|]. intros x (_ & X). unfold dot. lra.
Qed.

(** The sort of the examples. *)
Fixpoint ins (m : mark) (l : list mark) : list mark :=
  match l with [] => [m] | x :: l' => if ltq (mval x) (mval m) then x :: ins m l' else m :: l end.
Definition isort (l : list mark) : list mark := fold_right ins [] l.
Lemma isort_permutes l : Permutation (isort l) l.
Proof.
  assert (I : forall m l, Permutation (ins m l) (m :: l)).
  { intros m k. induction k as [|x k IH]; cbn [ins]; [auto|]. destruct (ltq (mval x) (mval m)); auto. rewrite IH. constructor. }
  induction l as [|m l IH]; cbn [isort fold_right]; [constructor|]. unfold isort in IH. now rewrite I, IH.
Qed.

(** A polygon of two prongs, one without vertices and one that crosses itself: the
    prongs become two polygons. *)
Definition comb : list pt := [(0, 0); (6, 0); (6, 4); (4, 4); (4, 1); (2, 1); (2, 4); (0, 4)].
Definition bow : list pt := [(0, 0); (4, 4); (4, 0); (0, 4)].
Example cut_poly_met :
  list_sum [8; 0; 4]%nat = length (comb ++ bow) /\
  match cut_poly isort [8; 0; 4]%nat (comb ++ bow) 1 2 5 3 with
  | Ok (pts', counts') => counts' = [4; 4; 7]%nat /\
      map (fun q => (windings q (polygons counts' pts'), windings q (polygons [8; 0; 4]%nat (comb ++ bow))))
          [((3#2), (5#2)); (3, (5#2)); ((1#2), (5#2)); (4, 4)] = [(-2, -2); (1, 1); (0, -2); (0, 0)]%Z
  | _ => False
  end.
Proof. vm_compute. auto. Qed.

(** ** Edges *)

(** An edge with its ends on different sides of a vertical or horizontal line is
    cut at the one place where it meets the line: on the line and on the edge. *)
Theorem cut_edge_exact nx ny H a b :
  (nx == 0 /\ (ny == 1 \/ ny == -1)) \/ (ny == 0 /\ (nx == 1 \/ nx == -1)) ->
  let side p := nx * fst p + ny * snd p in
  (side a < H /\ H < side b) \/ (H < side a /\ side b < H) ->
  let c := cut_edge a b nx ny H in
  side c == H /\ (exists t, 0 < t /\ t < 1 /\ same c (point_at a b t)) /\
  forall t, side (point_at a b t) == H -> same (point_at a b t) c.
Proof.
  intros AX side S c. destruct (cut_edge_ok nx ny H a b AX S) as (E & T0 & T1 & ON). split; [exact ON|]. split; [eauto|].
  intros t Ht. fold c in E. set (u := (H - dot nx ny a) / (dot nx ny b - dot nx ny a)) in *. clearbody u.
  assert (EU : side (point_at a b u) == H). { destruct E as (E1 & E2). unfold side, dot in *. rewrite <- E1, <- E2. exact ON. }
  assert (TU : t == u).
  { unfold side, point_at in *. cbn [fst snd] in *. set (sa := nx * fst a + ny * snd a) in *. set (sb := nx * fst b + ny * snd b) in *.
    assert (X : (t - u) * (sb - sa) == 0) by (unfold sa, sb; lra). destruct (Qmult_integral _ _ X); lra. }
  destruct E as (E1 & E2). unfold same, point_at in *. cbn [fst snd] in *. rewrite E1, E2, TU. split; reflexivity.
Qed.
Example cut_edge_met : same (cut_edge (0, 0) (4, 2) 1 0 3) (3, 3 # 2) /\ same (cut_edge (0, 4) (4, 0) 0 (-1 # 1) (-1 # 1)) (3, 1).
Proof. vm_compute. auto. Qed.

(** The test tells exactly whether an edge and a box, the borders included, have
    a point in common; edges of no length and boxes of no width included. *)
Theorem edge_meets_box_exact a b xl yl xh yh : xl <= xh -> yl <= yh ->
  (edge_meets_box (fst a) (snd a) (fst b) (snd b) xl yl xh yh = true <->
   exists t, 0 <= t <= 1 /\ inside xl yl xh yh (point_at a b t)).
Proof. intros A B. unfold inside, point_at. cbn [fst snd]. now apply box_iff. Qed.

(** The same for a horizontal edge. *)
Theorem edge_meets_horizontal_exact a b begx endx y : begx <= endx ->
  (edge_meets_horizontal (fst a) (snd a) (fst b) (snd b) begx endx y = true <->
   exists t, 0 <= t <= 1 /\ snd (point_at a b t) == y /\ begx <= fst (point_at a b t) <= endx).
Proof. intros A. unfold point_at. cbn [fst snd]. now apply horizontal_iff. Qed.

(** Both ends are outside the box and it lies between them, or to one side of the edge;
    an edge along the border; one that touches a corner. *)
Example edge_meets_box_met :
  edge_meets_box 0 0 6 6 1 2 3 4 = true /\ edge_meets_box 0 3 4 6 1 2 3 4 = true /\
  edge_meets_box 0 4 6 6 1 2 3 4 = false /\ edge_meets_box 3 0 3 9 1 2 3 4 = true /\ edge_meets_box 2 5 4 3 1 2 3 4 = true.
Proof. vm_compute. auto. Qed.

(** For a box with its sides exchanged, xl > xh, the test can hold though no point
    is in the box.  (The assertion that should catch this compares xl to itself.) *)
Theorem edge_meets_box_any_sides_refuted : exists a b xl yl xh yh, yl <= yh /\
  edge_meets_box (fst a) (snd a) (fst b) (snd b) xl yl xh yh = true /\ forall p, ~ inside xl yl xh yh p.
Proof.
  exists (0, 1), (9, 1), 5, 0, 3, 2. split; [lra|]. split; [vm_compute; reflexivity|]. intros p (A & B). lra.
Qed.

Print Assumptions cut_poly_exact.
Print Assumptions cut_edge_exact.
Print Assumptions edge_meets_box_exact.
Print Assumptions edge_meets_horizontal_exact.
Print Assumptions edge_meets_box_any_sides_refuted.
