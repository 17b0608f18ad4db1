From Coq Require Import List ZArith QArith Bool Lia Lqa Permutation.
From Verif Require Import Lib.Base Lib.Lists Cut.Model Cut.Spec Cut.Proofs Cut.Cycles Cut.HProofs.
Import ListNotations.
Open Scope Q_scope.

(** ** Crossings of a ray, with the place given *)

(** A crossing of the line through [q] that is [left] or not. *)
Definition cross (ya yb yq : Q) (left : bool) : Z :=
  if Qle_bool ya yq && ltq yq yb && left then 1%Z else if Qle_bool yb yq && ltq yq ya && left then (-1)%Z else 0%Z.
Definition gl (q a b : pt) : Z := cross (snd a) (snd b) (snd q) (ltq (x_at a b (snd q)) (fst q)).
Definition gr (q a b : pt) : Z := cross (snd a) (snd b) (snd q) (negb (ltq (x_at a b (snd q)) (fst q))).
Lemma gl_crossing q a b : gl q a b = crossing q (a, b).
Proof. reflexivity. Qed.

Lemma gl_gr q a b : (gl q a b + gr q a b)%Z =
  ((if Qle_bool (snd a) (snd q) then 1 else 0) - (if Qle_bool (snd b) (snd q) then 1 else 0))%Z.
Proof.
  unfold gl, gr, cross. destruct (leqP (snd a) (snd q)), (leqP (snd b) (snd q)), (ltqP (snd q) (snd a)), (ltqP (snd q) (snd b)), (ltq (x_at a b (snd q)) (fst q));
    cbn [andb negb]; try reflexivity; lra.
Qed.

Lemma closed_sum (h : pt -> Z) l : esum (fun a b => (h a - h b)%Z) l = 0%Z.
Proof.
  destruct l as [|v l]; [reflexivity|]. rewrite esum_path.
  assert (G : forall l t w, path_sum (fun a b => (h a - h b)%Z) t (w :: l) = (h w - h t)%Z).
  { clear. induction l as [|n l IH]; intros t w; cbn [path_sum]; [lia|]. specialize (IH t n). cbn [path_sum] in IH. rewrite IH. lia. }
  rewrite G. lia.
Qed.

Lemma esum_add g h k l : (forall a b, (g a b + h a b)%Z = k a b) -> (esum g l + esum h l)%Z = esum k l.
Proof. intros E. unfold esum. rewrite <- sumz_add. apply sumz_ext. intros; apply E. Qed.

Lemma gr_gl q l : esum (gr q) l = (- esum (gl q) l)%Z.
Proof.
  pose proof (closed_sum (fun a => if Qle_bool (snd a) (snd q) then 1%Z else 0%Z) l) as C.
  rewrite <- (esum_add (gl q) (gr q) _ l) in C by (intros; apply gl_gr). lia.
Qed.

(** ** Parts of edges *)

Lemma x_at_u a b y : ~ snd b == snd a -> exists u, u * (snd b - snd a) == y - snd a /\ x_at a b y == fst a + u * (fst b - fst a).
Proof. intros N. exists ((y - snd a) / (snd b - snd a)). unfold x_at. split; field; lra. Qed.

Lemma x_at_first a b c t y : ~ snd b == snd a -> same c (point_at a b t) -> 0 < t -> x_at a c y == x_at a b y.
Proof.
  intros N (E1 & E2) T. unfold point_at in *. cbn [fst snd] in *. unfold x_at. rewrite E1, E2. field. split; [lra|]. nra.
Qed.
Lemma x_at_second a b c t y : ~ snd b == snd a -> same c (point_at a b t) -> t < 1 -> x_at c b y == x_at a b y.
Proof.
  intros N (E1 & E2) T. unfold point_at in *. cbn [fst snd] in *. unfold x_at. rewrite E1, E2. field. split; [lra|]. nra.
Qed.

Ltac cmps := repeat match goal with
  | |- context [ltq ?a ?b] => destruct (ltqP a b)
  | |- context [Qle_bool ?a ?b] => destruct (leqP a b)
  end; cbn [andb negb].

(** An edge on the level of [q] counts nothing. *)
Lemma cross_flat ya yb yq l : yb == ya -> cross ya yb yq l = 0%Z.
Proof. intros E. unfold cross. cmps; try reflexivity; lra. Qed.

Section Parts.
Variables (q a b c : pt) (t : Q).
Hypothesis C : same c (point_at a b t).
Hypothesis T0 : 0 < t.
Hypothesis T1 : t < 1.
Notation yq := (snd q).

(** The part from [a] to [c] counts as much as the whole if the rest does not
    cross; [cr] says that a crossing of the whole is one of the part. *)
Lemma first_part (left : Q -> bool) (LE : forall x y, x == y -> left x = left y) :
  (forall u, 0 <= u <= 1 -> u * (snd b - snd a) == yq - snd a -> left (fst a + u * (fst b - fst a)) = true -> u < t) ->
  cross (snd a) (snd b) yq (left (x_at a b yq)) = cross (snd a) (snd c) yq (left (x_at a c yq)).
Proof.
  intros BEF. pose proof C as (CX & CY). unfold point_at in CX, CY. cbn [fst snd] in CX, CY.
  destruct (Qeq_dec (snd b) (snd a)) as [E|N].
  - rewrite !cross_flat; auto. rewrite CY, E. ring.
  - destruct (x_at_u a b yq N) as (u & U & X). rewrite (LE _ _ (x_at_first a b c t yq N C T0)). rewrite (LE _ _ X).
    destruct (left (fst a + u * (fst b - fst a))) eqn:EL.
    + specialize (BEF u). unfold cross. cmps; try reflexivity; exfalso; try lra; try nra.
      all: assert (UT : u < t) by (apply BEF; auto; nra); nra.
    + unfold cross. cmps; rewrite ?andb_false_r; reflexivity.
Qed.
Lemma second_part (left : Q -> bool) (LE : forall x y, x == y -> left x = left y) :
  (forall u, 0 <= u <= 1 -> u * (snd b - snd a) == yq - snd a -> left (fst a + u * (fst b - fst a)) = true -> t < u) ->
  cross (snd a) (snd b) yq (left (x_at a b yq)) = cross (snd c) (snd b) yq (left (x_at c b yq)).
Proof.
  intros AFT. pose proof C as (CX & CY). unfold point_at in CX, CY. cbn [fst snd] in CX, CY.
  destruct (Qeq_dec (snd b) (snd a)) as [E|N].
  - rewrite !cross_flat; auto. rewrite CY, E. ring.
  - destruct (x_at_u a b yq N) as (u & U & X). rewrite (LE _ _ (x_at_second a b c t yq N C T1)). rewrite (LE _ _ X).
    destruct (left (fst a + u * (fst b - fst a))) eqn:EL.
    + specialize (AFT u). unfold cross. cmps; try reflexivity; exfalso; try lra; try nra.
      all: assert (UT : t < u) by (apply AFT; auto; nra); nra.
    + unfold cross. cmps; rewrite ?andb_false_r; reflexivity.
Qed.
End Parts.

Lemma cross_additive nx ny H (q : pt) (left : Q -> bool) (LE : forall x y, x == y -> left x = left y) :
  (forall x, left x = true -> nx * x + ny * snd q < H) ->
  additive nx ny H (fun a b => cross (snd a) (snd b) (snd q) (left (x_at a b (snd q)))).
Proof.
  intros IN. unfold additive, dot.
  assert (AT : forall a b u, u * (snd b - snd a) == snd q - snd a -> left (fst a + u * (fst b - fst a)) = true ->
    (nx * fst a + ny * snd a) + u * ((nx * fst b + ny * snd b) - (nx * fst a + ny * snd a)) < H).
  { intros a b u U L. apply IN in L. assert (EQ : snd q == snd a + u * (snd b - snd a)) by (rewrite U; ring). rewrite EQ in L. lra. }
  split; [|split].
  - intros a b DA DB. destruct (Qeq_dec (snd b) (snd a)) as [E|N]; [now apply cross_flat|].
    destruct (x_at_u a b (snd q) N) as (u & U & X). rewrite (LE _ _ X). destruct (left (fst a + u * (fst b - fst a))) eqn:EL.
    + specialize (AT a b u U EL). set (da := nx * fst a + ny * snd a) in *. set (db := nx * fst b + ny * snd b) in *. clearbody da db.
      assert (OUT : ~ (0 <= u <= 1)) by nra. unfold cross. cmps; try reflexivity; exfalso; apply OUT; nra.
    + unfold cross. now rewrite !andb_false_r.
  - intros a b c t DA DB C T0 T1 DC. apply (first_part q a b c t C T0 T1 left LE). intros u BU U L. specialize (AT a b u U L).
    destruct C as (CX & CY). unfold point_at in CX, CY. cbn [fst snd] in CX, CY. rewrite CX, CY in DC.
    set (da := nx * fst a + ny * snd a) in *. set (db := nx * fst b + ny * snd b) in *.
    assert (DT : da + t * (db - da) == H) by (unfold da, db; lra). clearbody da db. nra.
  - intros a b c t DA DB C T0 T1 DC. apply (second_part q a b c t C T0 T1 left LE). intros u BU U L. specialize (AT a b u U L).
    destruct C as (CX & CY). unfold point_at in CX, CY. cbn [fst snd] in CX, CY. rewrite CX, CY in DC.
    set (da := nx * fst a + ny * snd a) in *. set (db := nx * fst b + ny * snd b) in *.
    assert (DT : da + t * (db - da) == H) by (unfold da, db; lra). clearbody da db. nra.
Qed.

Lemma ltq_ext x y z : x == y -> ltq x z = ltq y z.
Proof. intros E. destruct (ltqP x z), (ltqP y z); auto; lra. Qed.

Lemma gl_additive nx ny H q : (forall x, x < fst q -> nx * x + ny * snd q < H) -> additive nx ny H (gl q).
Proof.
  intros IN. apply (cross_additive nx ny H q (fun x => ltq x (fst q))).
  - intros x y E. now apply ltq_ext.
  - intros x E. apply IN. destruct (ltqP x (fst q)); auto; discriminate.
Qed.
Lemma gr_additive nx ny H q : (forall x, fst q <= x -> nx * x + ny * snd q < H) -> additive nx ny H (gr q).
Proof.
  intros IN. apply (cross_additive nx ny H q (fun x => negb (ltq x (fst q)))).
  - intros x y E. now rewrite (ltq_ext x y).
  - intros x E. apply IN. destruct (ltqP x (fst q)); auto; discriminate.
Qed.

(** ** All polygons *)

Lemma esum_nil g : esum g [] = 0%Z.
Proof. reflexivity. Qed.
Lemma sum_filter g polys : sumz (esum g) (filter (fun p => (0 <? length p)%nat) polys) = sumz (esum g) polys.
Proof.
  induction polys as [|p polys IH]; [reflexivity|]. cbn [filter]. destruct p as [|x p]; [change (0 <? length (@nil pt))%nat with false|change (0 <? length (x :: p))%nat with true]; cbv iota.
  - rewrite sumz_cons, IH, esum_nil. reflexivity.
  - now rewrite !sumz_cons, IH.
Qed.
Lemma concat_filter (polys : list (list pt)) : concat (filter (fun p => (0 <? length p)%nat) polys) = concat polys.
Proof. induction polys as [|p polys IH]; [reflexivity|]. cbn [filter]. destruct p as [|x p]; [change (0 <? length (@nil pt))%nat with false|change (0 <? length (x :: p))%nat with true]; cbv iota; cbn [concat]; now rewrite IH. Qed.
Lemma map_filter_length (polys : list (list pt)) : filter (fun k => (0 <? k)%nat) (map (@length pt) polys) = map (@length pt) (filter (fun p => (0 <? length p)%nat) polys).
Proof. induction polys as [|p polys IH]; [reflexivity|]. cbn [map filter]. destruct (0 <? length p)%nat; cbn [map]; congruence. Qed.

Section All.
Variables nx ny H : Q.
Hypothesis AX : axis nx ny.
Notation d := (dot nx ny).
Variable sort : list mark -> list mark.
Hypothesis SORT : forall l, Permutation (sort l) l.

Definition cut_ok (polys polys' : list (list pt)) : Prop :=
  (forall p, In p polys' -> p <> []) /\
  (forall q, In q (concat polys') -> d q <= H /\ (In q (concat polys) \/ new_point nx ny H (concat polys) q)) /\
  (forall q, In q (concat polys) -> d q < H -> In q (concat polys')) /\
  forall g, additive nx ny H g -> sumz (esum g) polys' = sumz (esum g) polys.

Lemma cut_all_ok polys : exists polys', cut_all sort nx ny H (map (@length pt) polys) (concat polys) = Ok (concat polys', map (@length pt) polys') /\ cut_ok polys polys'.
Proof.
  induction polys as [|p polys (ps' & E & N & A & B & G)]; cbn [map concat cut_all].
  - exists []. split; auto. split; [intros p []|]. split; [intros q []|]. split; [intros q []|]. auto.
  - replace (skipn (length p) (p ++ concat polys)) with (concat polys) by (rewrite skipn_app, skipn_all, Nat.sub_diag; reflexivity).
    destruct (Nat.eqb_spec (length p) 0) as [Z0|NZ].
    + destruct p; [|discriminate]. exists ps'. split; auto. split; [exact N|]. split; [exact A|]. split; [exact B|]. intros g AD. rewrite sumz_cons, esum_nil. exact (G g AD).
    + destruct (Nat.ltb_spec (length (p ++ concat polys)) (length p)) as [L|L]; [rewrite app_length in L; lia|].
      replace (firstn (length p) (p ++ concat polys)) with p by (rewrite firstn_app, firstn_all, Nat.sub_diag; cbn; now rewrite app_nil_r).
      destruct (half_ok nx ny H AX sort SORT p) as (hs & -> & HA & HB & HG). cbn [bind]. rewrite E. cbn [bind].
      exists (filter (fun p => (0 <? length p)%nat) hs ++ ps'). split.
      { rewrite concat_app, concat_filter, map_app, map_filter_length. reflexivity. }
      split; [|split; [|split]].
      * intros r I. apply in_app_iff in I. destruct I as [I|I]; auto. apply filter_In in I. destruct I as (_ & I). now destruct r.
      * intros q I. rewrite concat_app, concat_filter in I. cbn [concat]. rewrite in_app_iff. apply in_app_iff in I. destruct I as [I|I]; [apply HA in I|apply A in I]; destruct I as (L2 & [I|I]);
          (split; [auto|]); auto; right; (eapply new_more; [|exact I]); intros x J; apply in_app_iff; auto.
      * intros q I L2. rewrite concat_app, concat_filter. apply in_app_iff. cbn [concat] in I. apply in_app_iff in I. destruct I as [I|I]; [left|right]; auto.
      * intros g AD. rewrite sumz_app, sum_filter, sumz_cons, (HG g AD), (G g AD). reflexivity.
Qed.
End All.

(** ** The window *)

Lemma axis_left : axis (-1 # 1) 0. Proof. right. split; [reflexivity|right; reflexivity]. Qed.
Lemma axis_right : axis 1 0. Proof. right. split; [reflexivity|left; reflexivity]. Qed.
Lemma axis_bottom : axis 0 (-1 # 1). Proof. left. split; [reflexivity|right; reflexivity]. Qed.
Lemma axis_top : axis 0 1. Proof. left. split; [reflexivity|left; reflexivity]. Qed.

Lemma polygons_concat counts : forall pts, list_sum counts = length pts ->
  concat (polygons counts pts) = pts /\ map (@length pt) (polygons counts pts) = counts.
Proof.
  induction counts as [|n counts IH]; intros pts E; cbn [polygons concat map list_sum] in *.
  - destruct pts; [auto|discriminate].
  - cbn [list_sum fold_right] in E. change (fold_right Nat.add 0%nat counts) with (list_sum counts) in E.
    destruct (IH (skipn n pts)) as (A & B); [rewrite skipn_length; lia|]. rewrite A, B, firstn_skipn. split; auto. f_equal. apply firstn_length_le. lia.
Qed.
Lemma polygons_of (polys : list (list pt)) : polygons (map (@length pt) polys) (concat polys) = polys.
Proof.
  induction polys as [|p polys IH]; [reflexivity|]. cbn [map concat polygons]. rewrite firstn_app, firstn_all, Nat.sub_diag, skipn_app, skipn_all, Nat.sub_diag.
  cbn [firstn skipn app]. rewrite app_nil_r. now rewrite IH.
Qed.

Lemma winding_esum q l : winding q l = esum (gl q) l.
Proof. unfold winding, esum. apply sumz_ext. intros [a b] _. reflexivity. Qed.
Lemma windings_esum q ls : windings q ls = sumz (esum (gl q)) ls.
Proof. unfold windings. apply sumz_ext. intros; apply winding_esum. Qed.
Lemma sum_gr q ls : sumz (esum (gr q)) ls = (- sumz (esum (gl q)) ls)%Z.
Proof. induction ls as [|l ls IH]; [reflexivity|]. rewrite !sumz_cons, IH, gr_gl. lia. Qed.

(** A half-plane that has all vertices keeps them. *)
Definition convex (R : pt -> Prop) : Prop := forall a b t q, R a -> R b -> 0 < t -> t < 1 -> same q (point_at a b t) -> R q.
Lemma half_left z : convex (fun x => z <= fst x).
Proof. intros a b t q A B T0 T1 (E & _). unfold point_at in E. cbn [fst] in E. rewrite E. nra. Qed.
Lemma half_right z : convex (fun x => fst x <= z).
Proof. intros a b t q A B T0 T1 (E & _). unfold point_at in E. cbn [fst] in E. rewrite E. nra. Qed.
Lemma half_bottom z : convex (fun x => z <= snd x).
Proof. intros a b t q A B T0 T1 (_ & E). unfold point_at in E. cbn [snd] in E. rewrite E. nra. Qed.
Lemma convex_keep nx ny H (l l' : list pt) (P : pt -> Prop) (R : pt -> Prop) :
  (forall q, In q l' -> P q /\ (In q l \/ new_point nx ny H l q)) -> convex R -> (forall x, In x l -> R x) -> forall x, In x l' -> R x.
Proof.
  intros A C IN x I. apply A in I. destruct I as (_ & [I|(_ & a & b & t & IA & IB & (T0 & T1) & S)]); auto. apply (C a b t x); auto.
Qed.

Lemma cut_poly_ok sort (SORT : forall l, Permutation (sort l) l) polys xll yll xur yur :
  exists polys', cut_poly sort (map (@length pt) polys) (concat polys) xll yll xur yur = Ok (concat polys', map (@length pt) polys') /\
    (forall p, In p polys' -> p <> []) /\
    (forall q, In q (concat polys') -> inside xll yll xur yur q /\ (In q (concat polys) \/ on_border xll yll xur yur q)) /\
    (forall q, In q (concat polys) -> strictly_inside xll yll xur yur q -> In q (concat polys')) /\
    forall q, strictly_inside xll yll xur yur q -> windings q polys' = windings q polys.
Proof.
  unfold cut_poly.
  destruct (cut_all_ok (-1 # 1) 0 (((-1 # 1) + 0) * xll) axis_left sort SORT polys) as (p1 & -> & N1 & A1 & B1 & G1). cbn [bind].
  destruct (cut_all_ok 1 0 ((1 + 0) * xur) axis_right sort SORT p1) as (p2 & -> & N2 & A2 & B2 & G2). cbn [bind].
  destruct (cut_all_ok 0 (-1 # 1) ((0 + (-1 # 1)) * yll) axis_bottom sort SORT p2) as (p3 & -> & N3 & A3 & B3 & G3). cbn [bind].
  destruct (cut_all_ok 0 1 ((0 + 1) * yur) axis_top sort SORT p3) as (p4 & -> & N4 & A4 & B4 & G4).
  exists p4. split; auto. split; auto. unfold dot in *. split; [|split].
  - intros q I.
    assert (X1 : forall x, In x (concat p1) -> xll <= fst x) by (intros x J; apply A1 in J; lra).
    assert (X2 : forall x, In x (concat p2) -> xll <= fst x) by (eapply convex_keep; [exact A2|apply half_left|exact X1]).
    assert (X3 : forall x, In x (concat p3) -> xll <= fst x) by (eapply convex_keep; [exact A3|apply half_left|exact X2]).
    assert (X4 : forall x, In x (concat p4) -> xll <= fst x) by (eapply convex_keep; [exact A4|apply half_left|exact X3]).
    assert (Y2 : forall x, In x (concat p2) -> fst x <= xur) by (intros x J; apply A2 in J; lra).
    assert (Y3 : forall x, In x (concat p3) -> fst x <= xur) by (eapply convex_keep; [exact A3|apply half_right|exact Y2]).
    assert (Y4 : forall x, In x (concat p4) -> fst x <= xur) by (eapply convex_keep; [exact A4|apply half_right|exact Y3]).
    assert (Z3 : forall x, In x (concat p3) -> yll <= snd x) by (intros x J; apply A3 in J; lra).
    assert (Z4 : forall x, In x (concat p4) -> yll <= snd x) by (eapply convex_keep; [exact A4|apply half_bottom|exact Z3]).
    split; [split; [auto|split; [auto|]]|].
    + apply A4 in I. lra.
    + apply A4 in I. destruct I as (_ & [I|(I & _)]); [|unfold dot in I; right; right; right; right; lra].
      apply A3 in I. destruct I as (_ & [I|(I & _)]); [|unfold dot in I; right; right; right; left; lra].
      apply A2 in I. destruct I as (_ & [I|(I & _)]); [|unfold dot in I; right; right; left; lra].
      apply A1 in I. destruct I as (_ & [I|(I & _)]); [|unfold dot in I; right; left; lra]. auto.
  - intros q I ((S1 & S2) & (S3 & S4)). apply B4; [apply B3; [apply B2; [apply B1; auto|]|]|]; lra.
  - intros q ((S1 & S2) & (S3 & S4)). rewrite !windings_esum.
    rewrite G4 by (apply gl_additive; intros; lra). rewrite G3 by (apply gl_additive; intros; lra). rewrite G2 by (apply gl_additive; intros; lra).
    assert (E := G1 (gr q) ltac:(apply gr_additive; intros; lra)). rewrite !sum_gr in E. lia.
Qed.
