(* Lemmas for C24. *)
From Coq Require Import ZArith List Lia Bool.
From Verif Require Import Lib.Base Lib.Img Dist.Model Dist.Spec.
Import ListNotations.
Local Open Scope Z_scope.

(* a double loop whose body rewrites its own pixel only *)
Definition upd_at (g : Z -> Z -> Z -> Z) (x y : Z) (d d' : img Z) : Prop :=
  icols d' = icols d /\ irows d' = irows d /\
  (inside d x y -> pix d' x y = g x y (pix d x y)) /\
  (forall i j, (i <> x \/ j <> y) -> pix d' i j = pix d i j).


Lemma scan_map (C R : Z) g body a b a' b' d :
  a <= b -> a' <= b' -> icols d = C -> irows d = R ->
  (forall x y d, a <= x < b -> a' <= y < b' -> icols d = C -> irows d = R -> exists d1, body x y d = Ok d1 /\ upd_at g x y d d1) ->
  exists d', for_up a b (fun x => for_up a' b' (body x)) d = Ok d' /\ icols d' = C /\ irows d' = R /\
    forall x y, inside d x y ->
      (a <= x < b /\ a' <= y < b' -> pix d' x y = g x y (pix d x y)) /\
      (~ (a <= x < b /\ a' <= y < b') -> pix d' x y = pix d x y).
Proof.
  intros AB AB' HC HR B.
  apply (for_up_inv (fun k d' => icols d' = C /\ irows d' = R /\ forall x y, inside d x y ->
      (a <= x < k /\ a' <= y < b' -> pix d' x y = g x y (pix d x y)) /\
      (~ (a <= x < k /\ a' <= y < b') -> pix d' x y = pix d x y))); auto.
  { split; auto. split; auto. intros x y I. split; [lia|auto]. }
  intros k s Hk (SC & SR & S).
  destruct (for_up_inv (fun j d' => icols d' = C /\ irows d' = R /\ forall x y, inside d x y ->
      (a <= x < k /\ a' <= y < b' \/ x = k /\ a' <= y < j -> pix d' x y = g x y (pix d x y)) /\
      (~ (a <= x < k /\ a' <= y < b' \/ x = k /\ a' <= y < j) -> pix d' x y = pix d x y)) (body k) a' b' s) as (s' & E & P); auto.
  { split; auto. split; auto. intros x y I. destruct (S x y I) as [S1 S2]. split; intros; [apply S1|apply S2]; lia. }
  { intros j t Hj (TC & TR & T). destruct (B k j t Hk Hj TC TR) as (t' & E & (U1 & U2 & U3 & U4)).
    exists t'. split; auto. split; [congruence|]. split; [congruence|]. intros x y I. destruct (T x y I) as [T1 T2].
    destruct (Z.eq_dec x k) as [->|NX]; [destruct (Z.eq_dec y j) as [->|NY]|].
    - split; intros; [|lia]. rewrite U3 by (unfold inside in *; lia). f_equal. apply T2. lia.
    - rewrite U4 by lia. split; intros; [apply T1|apply T2]; lia.
    - rewrite U4 by lia. split; intros; [apply T1|apply T2]; lia. }
  exists s'. split; auto. destruct P as (P1 & P2 & P). split; auto. split; auto.
  intros x y I. destruct (P x y I) as [Q1 Q2]. split; intros; [apply Q1|apply Q2]; lia.
Qed.

Lemma out_of_spec cols rows c r : out_of cols rows c r = false <-> 0 <= c < cols /\ 0 <= r < rows.
Proof.
  unfold out_of. rewrite !orb_false_iff, !Z.ltb_ge, !Z.leb_gt. lia.
Qed.

Lemma bd_spec cols rows test V col row :
  (forall c r, 0 <= c < cols -> 0 <= r < rows -> exists b, test c r = Ok b /\ (b = true <-> V c r)) ->
  exists b, is_bd_pix cols rows test col row = Ok b /\
    (b = true <-> exists c r, 0 <= c < cols /\ 0 <= r < rows /\ V c r /\ Z.abs (col - c) <= 1 /\ Z.abs (row - r) <= 1).
Proof.
  intros T. unfold is_bd_pix.
  destruct (for_up_inv (fun k b => b = true <-> exists c r, c < k /\ 0 <= c < cols /\ 0 <= r < rows /\ V c r /\ Z.abs (col - c) <= 1 /\ Z.abs (row - r) <= 1)
    (fun c (b : bool) => if b then Ok b else for_up (row - 1) (row + 2) (fun r (b : bool) => if b then Ok b else if out_of cols rows c r then Ok b else test c r) b)
    (col - 1) (col + 2) false) as (b & E & P); [lia| | |].
  - split; [discriminate|]. intros (c & r & H). lia.
  - intros k b Hk P. destruct b.
    + exists true. split; auto. split; auto. intros _. destruct P as [P _]. destruct (P eq_refl) as (c & r & H). exists c, r. split; [lia|apply H].
    + assert (NP : forall c r, c < k -> 0 <= c < cols -> 0 <= r < rows -> V c r -> Z.abs (col - c) <= 1 -> Z.abs (row - r) <= 1 -> False).
      { intros c r H1 H2 H3 H4 H5 H6. destruct P as [_ P]. assert (false = true) by (apply P; exists c, r; tauto). discriminate. }
      destruct (for_up_inv (fun j b => b = true <-> exists r, r < j /\ 0 <= k < cols /\ 0 <= r < rows /\ V k r /\ Z.abs (row - r) <= 1)
        (fun r (b : bool) => if b then Ok b else if out_of cols rows k r then Ok b else test k r) (row - 1) (row + 2) false) as (b & E & Q); [lia| | |].
      * split; [discriminate|]. intros (r & H). lia.
      * intros j b Hj Q. destruct b.
        -- exists true. split; auto. split; auto. intros _. destruct Q as [Q _]. destruct (Q eq_refl) as (r & H). exists r. split; [lia|apply H].
        -- assert (NQ : forall r, r < j -> 0 <= k < cols -> 0 <= r < rows -> V k r -> Z.abs (row - r) <= 1 -> False).
           { intros r H1 H2 H3 H4 H5. destruct Q as [_ Q]. assert (false = true) by (apply Q; exists r; tauto). discriminate. }
           destruct (out_of cols rows k j) eqn:O.
           ++ exists false. split; auto. split; [discriminate|]. intros (r & H1 & H2 & H3 & H4 & H5). exfalso.
              destruct (Z.eq_dec r j) as [->|N]; [|apply (NQ r); auto; lia].
              assert (out_of cols rows k j = false) by (apply out_of_spec; auto). congruence.
           ++ apply out_of_spec in O. destruct (T k j) as (b & E & B); try tauto. exists b. split; auto. rewrite B. split.
              ** intros v. exists j. repeat split; auto; lia.
              ** intros (r & H1 & H2 & H3 & H4 & H5). destruct (Z.eq_dec r j) as [->|N]; auto. exfalso. apply (NQ r); auto; lia.
      * exists b. split; auto. rewrite Q. split.
        -- intros (r & H1 & H2 & H3 & H4 & H5). exists k, r. repeat split; auto; lia.
        -- intros (c & r & H1 & H2 & H3 & H4 & H5 & H6). destruct (Z.eq_dec c k) as [->|N]; [exists r; repeat split; auto; lia|].
           exfalso. apply (NP c r); auto; lia.
  - exists b. split; auto. rewrite P. split.
    + intros (c & r & _ & H). exists c, r. auto.
    + intros (c & r & H). exists c, r. split; auto. lia.
Qed.

Lemma ceil_bound p q k : 0 < q -> 0 <= p -> q * q * (k * k) < p * p -> Z.abs k < ceil_div p q + 1.
Proof.
  intros Q P H. unfold ceil_div. assert (q * Z.abs k < p) by nia.
  pose proof (Z.mul_div_le (- p) q Q). pose proof (Z.mod_pos_bound (- p) q Q). pose proof (Z.div_mod (- p) q ltac:(lia)). nia.
Qed.
Lemma ceil_pos p q : 0 < q -> 0 <= p -> 0 <= ceil_div p q.
Proof. intros Q P. unfold ceil_div. pose proof (Z.div_le_upper_bound (- p) q 0 Q ltac:(lia)). lia. Qed.

Lemma dist2_sym x y zx zy : dist2 x y zx zy = dist2 zx zy x y.
Proof. unfold dist2. ring. Qed.
Lemma dist2_nonneg x y zx zy : 0 <= dist2 x y zx zy.
Proof. unfold dist2. pose proof (Z.square_nonneg (x - zx)). pose proof (Z.square_nonneg (y - zy)). lia. Qed.
Lemma dist2_0 x y zx zy : dist2 x y zx zy = 0 -> x = zx /\ y = zy.
Proof.
  unfold dist2. intros H. pose proof (Z.square_nonneg (x - zx)). pose proof (Z.square_nonneg (y - zy)).
  assert (x - zx = 0) by (destruct (Z.eq_dec (x - zx) 0); [auto|nia]).
  assert (y - zy = 0) by (destruct (Z.eq_dec (y - zy) 0); [auto|nia]). lia.
Qed.

(* the window visits every pixel of the image closer than max_dist *)
Lemma window_spec cols rows p q col row g f d :
  0 < q -> 0 <= p -> icols d = cols -> irows d = rows ->
  (forall c r d, 0 <= c < cols -> 0 <= r < rows -> icols d = cols -> irows d = rows ->
     exists d1, f c r (sq_dist c r col row * (q * q)) d = Ok d1 /\ upd_at g c r d d1) ->
  exists d', window cols rows p q col row f d = Ok d' /\ icols d' = cols /\ irows d' = rows /\
    forall x y, inside d x y ->
      (q * q * dist2 x y col row < p * p -> pix d' x y = g x y (pix d x y)) /\
      (p * p <= q * q * dist2 x y col row -> pix d' x y = pix d x y).
Proof.
  intros Q P HC HR F. unfold window. pose proof (ceil_pos p q Q P).
  set (g' := fun x y v => if p * p <=? sq_dist x y col row * (q * q) then v else g x y v).
  destruct (scan_map cols rows g' (fun c r d => if out_of cols rows c r then Ok d
      else let dsq := sq_dist c r col row in if p * p <=? dsq * (q * q) then Ok d else f c r (dsq * (q * q)) d)
      (col - ceil_div p q) (col + ceil_div p q + 1) (row - ceil_div p q) (row + ceil_div p q + 1) d) as (d' & E & C' & R' & H'); auto; try lia.
  - intros x y t _ _ TC TR. destruct (out_of cols rows x y) eqn:O.
    + exists t. split; auto. split; auto. split; auto. split; auto. intros I.
      assert (out_of cols rows x y = false) by (apply out_of_spec; unfold inside in I; lia). congruence.
    + apply out_of_spec in O. cbv zeta. destruct (Z.leb_spec (p * p) (sq_dist x y col row * (q * q))).
      * exists t. split; auto. split; auto. split; auto. split; auto. intros I. unfold g'.
        destruct (Z.leb_spec (p * p) (sq_dist x y col row * (q * q))); auto; lia.
      * destruct (F x y t) as (t' & E & (U1 & U2 & U3 & U4)); try tauto. exists t'. split; auto. split; auto. split; auto. split; auto.
        intros I. rewrite U3 by auto. unfold g'. destruct (Z.leb_spec (p * p) (sq_dist x y col row * (q * q))); auto; lia.
  - exists d'. split; auto. split; auto. split; auto. intros x y I. destruct (H' x y I) as [H1 H2].
    assert (SD : sq_dist x y col row = dist2 x y col row) by reflexivity. unfold g' in H1. rewrite SD in H1. split; intros K.
    + destruct (Z.leb_spec (p * p) (dist2 x y col row * (q * q))); [lia|]. apply H1. unfold dist2 in K.
      pose proof (Z.mul_nonneg_nonneg (q * q) _ (Z.square_nonneg q) (Z.square_nonneg (x - col))).
      pose proof (Z.mul_nonneg_nonneg (q * q) _ (Z.square_nonneg q) (Z.square_nonneg (y - row))).
      pose proof (ceil_bound p q (x - col) Q P ltac:(lia)). pose proof (ceil_bound p q (y - row) Q P ltac:(lia)). lia.
    + destruct (Z.leb_spec (p * p) (dist2 x y col row * (q * q))); [|lia].
      destruct (Z_le_dec (col - ceil_div p q) x); [|apply H2; lia].
      destruct (Z_lt_dec x (col + ceil_div p q + 1)); [|apply H2; lia].
      destruct (Z_le_dec (row - ceil_div p q) y); [|apply H2; lia].
      destruct (Z_lt_dec y (row + ceil_div p q + 1)); [|apply H2; lia]. apply H1. lia.
Qed.

(* only the holes that touch a valid pixel matter *)
Lemma edge_closer (m : img Z) V x y : (forall x y, {V x y} + {~ V x y}) -> inside m x y -> V x y ->
  forall zx zy, hole m V zx zy -> exists ex ey, hole_edge m V ex ey /\ dist2 x y ex ey <= dist2 x y zx zy.
Proof.
  intros DEC I VX. intros zx zy.
  assert (G : forall k, 0 <= k -> forall zx zy, dist2 x y zx zy <= k -> hole m V zx zy -> exists ex ey, hole_edge m V ex ey /\ dist2 x y ex ey <= dist2 x y zx zy).
  { apply (natlike_ind (fun k => forall zx zy, dist2 x y zx zy <= k -> hole m V zx zy -> exists ex ey, hole_edge m V ex ey /\ dist2 x y ex ey <= dist2 x y zx zy)).
    - intros ax ay D [IA NA]. exfalso. pose proof (dist2_nonneg x y ax ay). destruct (dist2_0 x y ax ay) as [-> ->]; [lia|contradiction].
    - intros k Hk IH ax ay D [IA NA].
      set (bx := ax + Z.sgn (x - ax)). set (by_ := ay + Z.sgn (y - ay)).
      assert (IB : inside m bx by_) by (unfold inside in *; subst bx by_; lia).
      assert (NE : x <> ax \/ y <> ay) by (destruct (Z.eq_dec x ax), (Z.eq_dec y ay); subst; tauto).
      assert (CL : dist2 x y bx by_ < dist2 x y ax ay).
      { subst bx by_. unfold dist2. 
        assert (T : forall u v, (u - (v + Z.sgn (u - v))) * (u - (v + Z.sgn (u - v))) <= (u - v) * (u - v) /\
                   (u <> v -> (u - (v + Z.sgn (u - v))) * (u - (v + Z.sgn (u - v))) < (u - v) * (u - v))).
        { intros u v. destruct (Z.sgn_spec (u - v)) as [[? ->]|[[? ->]|[? ->]]]; split; intros; nia. }
        destruct (T x ax) as [T1 T2], (T y ay) as [T3 T4]. destruct NE as [NE|NE]; [specialize (T2 NE)|specialize (T4 NE)]; lia. }
      destruct (DEC bx by_) as [VB|NB].
      + exists ax, ay. split; [|lia]. split; [split; auto|]. exists bx, by_. repeat split; auto; try apply IB; subst bx by_; lia.
      + destruct (IH bx by_) as (ex & ey & HE & L); [lia|split; auto|]. exists ex, ey. split; auto. lia. }
  intros HZ. apply (G (dist2 x y zx zy)); auto; [apply dist2_nonneg|lia].
Qed.
