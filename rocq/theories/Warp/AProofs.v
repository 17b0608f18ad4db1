(** Proofs about the approximation of a transform by a table. *)
From Coq Require Import List Bool ZArith QArith Qround Lia Lqa Psatz.
From Verif Require Import Lib.Base Lib.Img BBox.Model BBox.Box2 Warp.Model Warp.Spec Warp.IProofs Warp.BProofs Warp.XProofs.
Import ListNotations.
Local Open Scope Q_scope.

Lemma node_place b n x y : bempty b = false -> node b n x y = place b (n - 1) x y.
Proof. intros NE. unfold node, place. destruct (bw_ne b NE) as [-> ->]. reflexivity. Qed.

Lemma inj_nz m : (0 < m)%Z -> ~ inject_Z m == 0.
Proof. intros H E. apply (inj_eq m 0) in E. lia. Qed.

(* a place does not depend on the fineness of the table *)
Lemma place_double b m x y : (0 < m)%Z -> peq (place b m x y) (place b (2 * m) (2 * x) (2 * y)).
Proof.
  intros M. apply inj_nz in M. unfold place, peq. cbn [fst snd]. rewrite !inject_Z_mult. change (inject_Z 2) with 2.
  set (a := inject_Z (x0 b)). set (c := inject_Z (y0 b)). set (w := inject_Z (x1 b - x0 b)). set (h := inject_Z (y1 b - y0 b)).
  set (mm := inject_Z m) in *. set (u := inject_Z x). set (v := inject_Z y). clearbody a c w h mm u v. split; field; auto.
Qed.

Lemma even_half x : (x mod 2 =? 0)%Z = true -> x = (2 * (x / 2))%Z /\ lower_even x = x /\ upper_even x = x.
Proof. intros E. apply Z.eqb_eq in E. unfold lower_even, upper_even. pose proof (Z.div_mod x 2). lia. Qed.
Lemma odd_half x : (x mod 2 =? 0)%Z = false -> x = (2 * (x / 2) + 1)%Z /\ lower_even x = (2 * (x / 2))%Z /\ upper_even x = (2 * (x / 2 + 1))%Z.
Proof. intros E. apply Z.eqb_neq in E. unfold lower_even, upper_even. pose proof (Z.div_mod x 2). pose proof (Z.mod_pos_bound x 2). lia. Qed.

Section Refine.
Context (f : pt -> pt) (F : respects f) (b : box) (NE : bempty b = false).

Definition table_of (m : Z) (t : img pt) : Prop :=
  icols t = (m + 1)%Z /\ irows t = (m + 1)%Z /\
  forall x y, (0 <= x <= m)%Z -> (0 <= y <= m)%Z -> peq (pix t x y) (f (place b m x y)).

Definition err (m x y : Z) : Q := distance2 (f (place b m x y)) (coarse_mean f b m x y).

Lemma table_get m t x y : table_of m t -> (0 <= x <= m)%Z -> (0 <= y <= m)%Z -> exists v, get t x y = Ok v /\ peq v (f (place b m x y)).
Proof. intros (C & R & H) X Y. exists (pix t x y). split; [apply get_in; unfold inside; rewrite C, R; lia|auto]. Qed.
Lemma table_get2 m t x y X Y : table_of m t -> (0 < m)%Z -> (0 <= x <= m)%Z -> (0 <= y <= m)%Z -> X = (2 * x)%Z -> Y = (2 * y)%Z ->
  exists v, get t x y = Ok v /\ peq v (f (place b (2 * m) X Y)).
Proof.
  intros T M HX HY -> ->. destruct (table_get m t x y T HX HY) as (v & G & E). exists v. split; auto.
  apply (peq_trans _ _ _ E), F, place_double, M.
Qed.

Lemma sqr_dist_comp p p' q q' : peq p p' -> peq q q' -> sqr_dist p q == distance2 p' q'.
Proof. intros [A B] [C D]. unfold sqr_dist, distance2. rewrite A, B, C, D. reflexivity. Qed.
Lemma dist_self p q : peq p q -> distance2 p q == 0.
Proof. intros [A B]. unfold distance2. rewrite A, B. ring. Qed.

Lemma err_even m x y : (y mod 2 =? 0)%Z && (x mod 2 =? 0)%Z = true -> err m x y == 0.
Proof.
  intros E. apply andb_true_iff in E as [Ey Ex]. destruct (even_half x Ex) as (_ & L & U). destruct (even_half y Ey) as (_ & L' & U').
  unfold err. apply dist_self. unfold coarse_mean, peq. rewrite L, U, L', U'. cbn [fst snd]. split; ring.
Qed.

Lemma entry_ok m prev t e x y : (0 < m)%Z -> table_of m prev -> icols t = (2 * m + 1)%Z -> irows t = (2 * m + 1)%Z ->
  (0 <= x <= 2 * m)%Z -> (0 <= y <= 2 * m)%Z -> 0 <= e ->
  exists t' e', refine_entry f b prev (2 * m + 1) x y (t, e) = Ok (t', e') /\
    icols t' = (2 * m + 1)%Z /\ irows t' = (2 * m + 1)%Z /\
    peq (pix t' x y) (f (place b (2 * m) x y)) /\ (forall i j, i <> x \/ j <> y -> pix t' i j = pix t i j) /\
    e <= e' /\ err (2 * m) x y <= e' /\ (e' = e \/ e' == err (2 * m) x y).
Proof.
  intros M T C R X Y E0. unfold refine_entry. cbn [fst snd]. rewrite node_place by auto. replace (2 * m + 1 - 1)%Z with (2 * m)%Z by lia.
  assert (IN : inside t x y) by (unfold inside; rewrite C, R; lia).
  destruct ((y mod 2 =? 0)%Z && (x mod 2 =? 0)%Z) eqn:EE.
  - pose proof (err_even (2 * m) x y EE) as Z0. apply andb_true_iff in EE as [Ey Ex].
    destruct (even_half x Ex) as (Hx & _ & _). destruct (even_half y Ey) as (Hy & _ & _).
    destruct (table_get2 m prev (x / 2) (y / 2) x y T M) as (v & -> & V); [lia|lia|auto|auto|]. cbn [bind].
    destruct (put_in t x y v IN) as (t' & -> & C' & R' & P1 & P2). cbn [bind].
    exists t', e. split; [reflexivity|]. rewrite C', R', P1. repeat split; auto; try apply V; lra.
  - set (v := f (place b (2 * m) x y)).
    destruct (put_in t x y v IN) as (t' & -> & C' & R' & P1 & P2). cbn [bind].
    assert (K : forall w, peq w (coarse_mean f b (2 * m) x y) ->
      exists t'0 e', Ok (t', if ltq e (sqr_dist v w) then sqr_dist v w else e) = Ok (t'0, e') /\
        icols t'0 = (2 * m + 1)%Z /\ irows t'0 = (2 * m + 1)%Z /\
        peq (pix t'0 x y) v /\ (forall i j, i <> x \/ j <> y -> pix t'0 i j = pix t i j) /\
        e <= e' /\ err (2 * m) x y <= e' /\ (e' = e \/ e' == err (2 * m) x y)).
    { intros w W. pose proof (sqr_dist_comp v v w _ (peq_refl v) W) as Q. fold v in Q.
      eexists _, _. split; [reflexivity|]. rewrite C', R', P1. split; [lia|split; [lia|split; [apply peq_refl|split; [auto|]]]].
      unfold err. fold v. destruct (ltqP e (sqr_dist v w)); (split; [lra|split; [lra|]]); auto. }
    destruct (y mod 2 =? 0)%Z eqn:Ey; [|destruct (x mod 2 =? 0)%Z eqn:Ex].
    + cbn [andb] in EE. destruct (even_half y Ey) as (Hy & Ly & Uy). destruct (odd_half x EE) as (Hx & Lx & Ux).
      destruct (table_get2 m prev (x / 2) (y / 2) (lower_even x) y T M) as (p & -> & P); [lia|lia|auto|auto|].
      destruct (table_get2 m prev (x / 2 + 1) (y / 2) (upper_even x) y T M) as (q & -> & Qq); [lia|lia|auto|auto|].
      cbn [bind]. apply K. unfold vadd, coarse_mean, peq. rewrite Ly, Uy. cbn [fst snd]. destruct P as [-> ->]. destruct Qq as [-> ->]. split; field.
    + destruct (odd_half y Ey) as (Hy & Ly & Uy). destruct (even_half x Ex) as (Hx & Lx & Ux).
      destruct (table_get2 m prev (x / 2) (y / 2) x (lower_even y) T M) as (p & -> & P); [lia|lia|auto|auto|].
      destruct (table_get2 m prev (x / 2) (y / 2 + 1) x (upper_even y) T M) as (q & -> & Qq); [lia|lia|auto|auto|].
      cbn [bind]. apply K. unfold vadd, coarse_mean, peq. rewrite Lx, Ux. cbn [fst snd]. destruct P as [-> ->]. destruct Qq as [-> ->]. split; field.
    + destruct (odd_half y Ey) as (Hy & Ly & Uy). destruct (odd_half x Ex) as (Hx & Lx & Ux).
      destruct (table_get2 m prev (x / 2) (y / 2) (lower_even x) (lower_even y) T M) as (p & -> & P); [lia|lia|auto|auto|].
      destruct (table_get2 m prev (x / 2) (y / 2 + 1) (lower_even x) (upper_even y) T M) as (q & -> & Qq); [lia|lia|auto|auto|].
      destruct (table_get2 m prev (x / 2 + 1) (y / 2) (upper_even x) (lower_even y) T M) as (p' & -> & P'); [lia|lia|auto|auto|].
      destruct (table_get2 m prev (x / 2 + 1) (y / 2 + 1) (upper_even x) (upper_even y) T M) as (q' & -> & Q'); [lia|lia|auto|auto|].
      cbn [bind]. apply K. unfold vadd, coarse_mean, peq. cbn [fst snd]. destruct P as [-> ->]. destruct Qq as [-> ->]. destruct P' as [-> ->]. destruct Q' as [-> ->]. split; field.
Qed.

(* the table while it is being filled *)
Definition filling (m : Z) (D : Z -> Z -> Prop) (s : img pt * Q) : Prop :=
  icols (fst s) = (2 * m + 1)%Z /\ irows (fst s) = (2 * m + 1)%Z /\ 0 <= snd s /\
  (forall i j, (0 <= i <= 2 * m)%Z -> (0 <= j <= 2 * m)%Z -> D i j -> peq (pix (fst s) i j) (f (place b (2 * m) i j)) /\ err (2 * m) i j <= snd s) /\
  (snd s == 0 \/ exists i j, (0 <= i <= 2 * m)%Z /\ (0 <= j <= 2 * m)%Z /\ snd s == err (2 * m) i j).

Lemma refine_ok m prev : (0 < m)%Z -> table_of m prev ->
  exists s, refine f b prev (2 * m + 1) = Ok s /\ filling m (fun _ _ => True) s.
Proof.
  intros M T. unfold refine.
  destruct (for_up_inv (fun y s => filling m (fun i j => (j < y)%Z) s) (fun y => for_up 0 (2 * m + 1) (fun x => refine_entry f b prev (2 * m + 1) x y)) 0 (2 * m + 1) (Img (2 * m + 1) (2 * m + 1) (fun _ _ => (0, 0)), 0))
    as (s & E & H).
  - lia.
  - unfold filling. cbn [fst snd icols irows]. split; [auto|split; [auto|split; [lra|split; [intros; lia|left; reflexivity]]]].
  - intros y s Hy Hs.
    destruct (for_up_inv (fun x s => filling m (fun i j => (j < y)%Z \/ j = y /\ (i < x)%Z) s) (fun x => refine_entry f b prev (2 * m + 1) x y) 0 (2 * m + 1) s) as (s' & E & H').
    + lia.
    + destruct Hs as (A1 & A2 & A3 & A4 & A5). repeat split; auto; apply A4; auto; lia.
    + intros x [t e] Hx (A1 & A2 & A3 & A4 & A5). cbn [fst snd] in *.
      destruct (entry_ok m prev t e x y M T A1 A2) as (t' & e' & -> & B1 & B2 & B3 & B4 & B5 & B6 & B7); [lia|lia|auto|].
      exists (t', e'). split; [reflexivity|]. unfold filling. cbn [fst snd]. split; [auto|split; [auto|split; [lra|split]]].
      * intros i j Hi Hj D.
        destruct (Z.eq_dec i x) as [->|Ni]; [destruct (Z.eq_dec j y) as [->|Nj]|].
        -- split; auto.
        -- rewrite B4 by auto. destruct (A4 x j Hi Hj ltac:(lia)) as [? ?]. split; [auto|lra].
        -- rewrite B4 by auto. destruct (A4 i j Hi Hj ltac:(lia)) as [? ?]. split; [auto|lra].
      * destruct B7 as [->|E7]; auto. right. exists x, y. split; [lia|split; [lia|auto]].
    + exists s'. split; auto. destruct H' as (A1 & A2 & A3 & A4 & A5). repeat split; auto; apply A4; auto; lia.
  - exists s. split; auto. destruct H as (A1 & A2 & A3 & A4 & A5). repeat split; auto; apply A4; auto; lia.
Qed.

Lemma filled m s : filling m (fun _ _ => True) s -> table_of (2 * m) (fst s).
Proof. intros (A1 & A2 & _ & A4 & _). split; [auto|split; auto]. intros. apply A4; auto. Qed.

Context (tol : Q).
Lemma filled_ok m s : filling m (fun _ _ => True) s -> ltq (tol * tol) (snd s) = false -> accurate f b tol (2 * m).
Proof.
  intros (A1 & A2 & A3 & A4 & A5) L x y X Y. destruct (ltqP (tol * tol) (snd s)); [discriminate|].
  destruct (A4 x y X Y I) as [_ ?]. unfold err in *. lra.
Qed.
Lemma filled_bad m s : filling m (fun _ _ => True) s -> ltq (tol * tol) (snd s) = true -> ~ accurate f b tol (2 * m).
Proof.
  intros (A1 & A2 & A3 & A4 & A5) L Acc. destruct (ltqP (tol * tol) (snd s)) as [L'|]; [|discriminate].
  destruct A5 as [E|(i & j & Hi & Hj & E)]; [nra|]. specialize (Acc i j Hi Hj). unfold err in E. lra.
Qed.

Lemma pow_succ k : (0 <= k)%Z -> (2 ^ (k + 1) = 2 * 2 ^ k)%Z.
Proof. intros. rewrite Z.pow_add_r by lia. lia. Qed.

Lemma loop_ok : forall fuel k t, (0 <= k)%Z -> table_of (2 ^ k) t -> (bw b - (2 ^ k + 1) < Z.of_nat fuel)%Z -> (0 < fuel)%nat ->
  (forall k', (1 <= k' <= k)%Z -> ~ accurate f b tol (2 ^ k')) ->
  exists r, refine_loop fuel f b (tol * tol) t (2 ^ k + 1) = Ok r /\
    match r with
    | Some t' => exists k', (1 <= k')%Z /\ table_of (2 ^ k') t' /\ (2 ^ k' + 1 < x1 b - x0 b)%Z /\ (2 ^ k' + 1 < y1 b - y0 b)%Z /\
        accurate f b tol (2 ^ k') /\ (forall k'', (1 <= k'' < k')%Z -> ~ accurate f b tol (2 ^ k''))
    | None => forall k', (1 <= k')%Z -> (2 ^ k' + 1 < x1 b - x0 b)%Z -> (2 ^ k' + 1 < y1 b - y0 b)%Z -> ~ accurate f b tol (2 ^ k')
    end.
Proof.
  destruct (bw_ne b NE) as [BW BH].
  induction fuel as [|fuel IH]; intros k t K T FU FP Bad; [lia|].
  pose proof (Z.pow_pos_nonneg 2 k ltac:(lia) K) as PP. pose proof (pow_succ k K) as PS.
  cbn [refine_loop]. replace (2 * (2 ^ k + 1) - 1)%Z with (2 * 2 ^ k + 1)%Z by lia.
  destruct ((2 * 2 ^ k + 1 >=? bw b)%Z || (2 * 2 ^ k + 1 >=? bh b)%Z) eqn:GE.
  - exists None. split; [reflexivity|]. intros k' K' W H.
    destruct (Z_le_gt_dec k' k) as [L|G]; [apply Bad; lia|]. exfalso.
    assert (P2 : (2 ^ (k + 1) <= 2 ^ k')%Z) by (apply Z.pow_le_mono_r; lia).
    apply orb_true_iff in GE as [GE|GE]; apply Z.geb_le in GE; lia.
  - apply orb_false_iff in GE as [G1 G2].
    assert (G1' : (2 * 2 ^ k + 1 < bw b)%Z) by (destruct (Z.geb_spec (2 * 2 ^ k + 1) (bw b)); [discriminate|lia]).
    assert (G2' : (2 * 2 ^ k + 1 < bh b)%Z) by (destruct (Z.geb_spec (2 * 2 ^ k + 1) (bh b)); [discriminate|lia]).
    destruct (refine_ok (2 ^ k) t PP T) as (s & -> & H). cbn [bind].
    pose proof (filled _ _ H) as T'. rewrite <- PS in T'.
    destruct (ltq (tol * tol) (snd s)) eqn:L.
    + rewrite <- PS. apply IH; [lia|auto|lia|lia|].
      intros k' K'. destruct (Z.eq_dec k' (k + 1)) as [->|]; [|apply Bad; lia]. rewrite PS. apply (filled_bad _ _ H L).
    + exists (Some (fst s)). split; [reflexivity|]. exists (k + 1)%Z. split; [lia|]. split; [auto|]. split; [lia|]. split; [lia|]. split.
      * rewrite PS. apply (filled_ok _ _ H L).
      * intros k'' K''. apply Bad. lia.
Qed.
End Refine.

Lemma initial_table f b : respects f -> bempty b = false -> table_of f b 1
  (of_rows (0, 0) [[f (at_pix (x0 b) (y0 b)); f (at_pix (x1 b) (y0 b))]; [f (at_pix (x0 b) (y1 b)); f (at_pix (x1 b) (y1 b))]]).
Proof.
  intros F NE. split; [reflexivity|split; [reflexivity|]]. intros x y X Y.
  assert (P : forall u v, peq (u, v) (place b 1 x y) -> peq (f (u, v)) (f (place b 1 x y))) by (intros; apply F; auto).
  assert (Dx : x = 0%Z \/ x = 1%Z) by lia. assert (Dy : y = 0%Z \/ y = 1%Z) by lia.
  destruct Dx as [->| ->], Dy as [->| ->]; cbn [of_rows pix Z.to_nat Pos.to_nat Pos.iter_op nth Nat.add]; change (Pos.to_nat 1) with 1%nat; cbn [nth]; apply P; unfold place, peq; cbn [fst snd]; unfold Z.sub; rewrite !inject_Z_plus, !inject_Z_opp; change (inject_Z 0) with 0; change (inject_Z 1) with 1; split; field.
Qed.

Lemma approximate_ok t b : respects (reverse t) -> bempty b = false ->
  exists r, approximate t b = Ok r /\
    match r with
    | Some m => exists k, (1 <= k)%Z /\ table_of (reverse t) b (2 ^ k) m /\ (2 ^ k + 1 < x1 b - x0 b)%Z /\ (2 ^ k + 1 < y1 b - y0 b)%Z /\
        accurate (reverse t) b (tolerance t) (2 ^ k) /\ (forall k', (1 <= k' < k)%Z -> ~ accurate (reverse t) b (tolerance t) (2 ^ k'))
    | None => forall k, (1 <= k)%Z -> (2 ^ k + 1 < x1 b - x0 b)%Z -> (2 ^ k + 1 < y1 b - y0 b)%Z -> ~ accurate (reverse t) b (tolerance t) (2 ^ k)
    end.
Proof.
  intros F NE. unfold approximate. change 2%Z with (2 ^ 0 + 1)%Z at 1. apply loop_ok; auto; [lia|apply initial_table; auto| |lia|intros; lia].
  destruct (bw_ne b NE) as [-> _]. apply nonempty in NE. change (2 ^ 0)%Z with 1%Z. lia.
Qed.

Lemma approximate_empty t b : bempty b = true -> approximate t b = Ok None.
Proof. intros E. unfold approximate. cbn [refine_loop]. unfold bw at 1. unfold bw. rewrite E. reflexivity. Qed.

(** Looking a point up. *)
Lemma cell_range n p : (1 <= n)%Z -> (0 <= table_cell n p <= n - 1)%Z.
Proof. intros N. unfold table_cell. destruct (Z.ltb_spec (Qfloor p) 0); [destruct (Z.geb_spec 0 n)|destruct (Z.geb_spec (Qfloor p) n)]; lia. Qed.

Lemma cell_node n x p : (1 <= n)%Z -> (0 <= x <= n)%Z -> p == inject_Z x ->
  (table_cell n p = x /\ p - inject_Z (table_cell n p) == 0) \/ (table_cell n p + 1 = x)%Z /\ p - inject_Z (table_cell n p) == 1.
Proof.
  intros N X E. assert (FL : Qfloor p = x) by (apply fl_unique; lra). unfold table_cell. rewrite FL.
  destruct (Z.ltb_spec x 0); [lia|]. destruct (Z.geb_spec x n).
  - right. assert (XN : x = n) by lia. split; [lia|]. rewrite E, XN. unfold Z.sub. rewrite inject_Z_plus, inject_Z_opp. change (inject_Z 1) with 1. ring.
  - left. split; auto. rewrite E. ring.
Qed.

Lemma pos_node b m x y : bempty b = false -> (1 <= m)%Z ->
  table_pos m (fst (place b m x y)) (x0 b) (x1 b) == inject_Z x /\ table_pos m (snd (place b m x y)) (y0 b) (y1 b) == inject_Z y.
Proof.
  intros NE M. apply nonempty in NE as [A B]. assert (M' := inj_nz m ltac:(lia)). assert (A' := inj_nz (x1 b - x0 b) ltac:(lia)). assert (B' := inj_nz (y1 b - y0 b) ltac:(lia)).
  unfold table_pos, place. cbn [fst snd].
  set (w := inject_Z (x1 b - x0 b)) in *. set (h := inject_Z (y1 b - y0 b)) in *. set (mm := inject_Z m) in *. clearbody w h mm. split; field; auto.
Qed.

Lemma lookup_node f b m t x y p : bempty b = false -> (1 <= m)%Z -> table_of f b m t -> (0 <= x <= m)%Z -> (0 <= y <= m)%Z -> peq p (place b m x y) ->
  peq (table_reverse b t p) (f (place b m x y)).
Proof.
  intros NE M (C & R & H) X Y [E1 E2]. destruct (pos_node b m x y NE M) as [P1 P2].
  unfold table_reverse. rewrite C. replace (m + 1 - 1)%Z with m by lia.
  assert (Q1 : table_pos m (fst p) (x0 b) (x1 b) == inject_Z x) by (rewrite <- P1; unfold table_pos; rewrite E1; reflexivity).
  assert (Q2 : table_pos m (snd p) (y0 b) (y1 b) == inject_Z y) by (rewrite <- P2; unfold table_pos; rewrite E2; reflexivity).
  set (u := table_pos m (fst p) (x0 b) (x1 b)) in *. set (v := table_pos m (snd p) (y0 b) (y1 b)) in *. clearbody u v.
  pose proof (H x y X Y) as [G1 G2].
  unfold peq. cbn [fst snd].
  destruct (cell_node m x u M X Q1) as [[A Nx]|[A Nx]]; destruct (cell_node m y v M Y Q2) as [[B Ny]|[B Ny]]; rewrite Nx, Ny; rewrite A, B; rewrite <- G1, <- G2; split; ring.
Qed.

Lemma lookup_affine f b m t p : bempty b = false -> (1 <= m)%Z -> table_of f b m t -> affine_map f -> peq (table_reverse b t p) (f p).
Proof.
  intros NE M (C & R & H) (a & bb & c & a' & b' & c' & AF).
  unfold table_reverse. rewrite C. replace (m + 1 - 1)%Z with m by lia.
  pose proof (cell_range m (table_pos m (fst p) (x0 b) (x1 b)) M) as CX. pose proof (cell_range m (table_pos m (snd p) (y0 b) (y1 b)) M) as CY.
  set (ix := table_cell m (table_pos m (fst p) (x0 b) (x1 b))) in *. set (iy := table_cell m (table_pos m (snd p) (y0 b) (y1 b))) in *.
  clearbody ix iy.
  assert (T : forall i j, (0 <= i <= m)%Z -> (0 <= j <= m)%Z ->
     fst (pix t i j) == a * fst (place b m i j) + bb * snd (place b m i j) + c /\ snd (pix t i j) == a' * fst (place b m i j) + b' * snd (place b m i j) + c').
  { intros i j Hi Hj. destruct (H i j Hi Hj) as [E1 E2]. destruct (AF (place b m i j)) as [F1 F2]. cbn [fst snd] in F1, F2. rewrite E1, E2. auto. }
  unfold peq. cbn [fst snd].
  destruct (T ix iy) as [-> ->]; [lia|lia|]. destruct (T (ix + 1)%Z iy) as [-> ->]; [lia|lia|].
  destruct (T ix (iy + 1)%Z) as [-> ->]; [lia|lia|]. destruct (T (ix + 1)%Z (iy + 1)%Z) as [-> ->]; [lia|lia|].
  apply nonempty in NE as [A B]. assert (M' := inj_nz m ltac:(lia)). assert (A' := inj_nz (x1 b - x0 b) ltac:(lia)). assert (B' := inj_nz (y1 b - y0 b) ltac:(lia)).
  destruct (AF p) as [F1 F2]. cbn [fst snd] in F1, F2. rewrite F1, F2.
  unfold place, table_pos. cbn [fst snd]. rewrite !inject_Z_plus. change (inject_Z 1) with 1.
  set (w := inject_Z (x1 b - x0 b)) in *. set (h := inject_Z (y1 b - y0 b)) in *. set (mm := inject_Z m) in *. set (X := inject_Z (x0 b)). set (Y := inject_Z (y0 b)).
  set (I := inject_Z ix). set (J := inject_Z iy). destruct p as [p1 p2]. cbn [fst snd]. clearbody w h mm X Y I J.
  split; field; auto.
Qed.
