From Coq Require Import ZArith List Lia Bool.
From Verif Require Import Lib.Base BBox.Proofs BBox.Box2 Blocks.Model Blocks.Spec Blocks.Proofs Views.Model Views.Spec.
Import ListNotations.
Local Open Scope Z_scope.

(* ---------------- sequences of orientation changes ---------------- *)
Definition csrc (m : mat) (u v : Z) : Z * Z := (ma m * u + mb m * v, mc m * u + md m * v).

Lemma turn_read {A} (t : turn) (e : vexp A) i j p : exists si sj,
  vread (turn_view t e) i j p = vread e si sj p /\
  2 * si - (vcols e - 1) = fst (csrc (turn_mat t) (2 * i - (vcols (turn_view t e) - 1)) (2 * j - (vrows (turn_view t e) - 1))) /\
  2 * sj - (vrows e - 1) = snd (csrc (turn_mat t) (2 * i - (vcols (turn_view t e) - 1)) (2 * j - (vrows (turn_view t e) - 1))).
Proof.
  destruct t; cbn [turn_view vread vcols vrows csrc fst snd turn_mat ma mb mc md]; do 2 eexists; (split; [reflexivity|]); lia.
Qed.

Lemma fold_mat l : forall m, fold_left (fun m t => mmul (turn_mat t) m) l m = mmul (fold_left (fun m t => mmul (turn_mat t) m) l mid) m.
Proof.
  induction l as [|t l IH]; intros m; simpl.
  - destruct m as [a1 a2 a3 a4]; unfold mmul, mid; cbn [ma mb mc md]. f_equal; ring.
  - rewrite IH. rewrite (IH (mmul (turn_mat t) mid)). generalize (fold_left (fun m t => mmul (turn_mat t) m) l mid).
    intros [c1 c2 c3 c4]. destruct m as [a1 a2 a3 a4], (turn_mat t) as [b1 b2 b3 b4]; unfold mmul, mid; cbn [ma mb mc md]; f_equal; ring.
Qed.

Lemma turns_read {A} (l : list turn) : forall (e : vexp A) i j p, exists si sj,
  vread (turns_view l e) i j p = vread e si sj p /\
  2 * si - (vcols e - 1) = fst (csrc (turns_mat l) (2 * i - (vcols (turns_view l e) - 1)) (2 * j - (vrows (turns_view l e) - 1))) /\
  2 * sj - (vrows e - 1) = snd (csrc (turns_mat l) (2 * i - (vcols (turns_view l e) - 1)) (2 * j - (vrows (turns_view l e) - 1))).
Proof.
  induction l as [|t l IH]; intros e i j p.
  - exists i, j. unfold turns_mat; cbn [turns_view fold_right fold_left csrc mid ma mb mc md fst snd]. split; [reflexivity|]. lia.
  - cbn [turns_view fold_right]. fold (turns_view l e).
    destruct (turn_read t (turns_view l e) i j p) as (s1 & s2 & E & E1 & E2).
    destruct (IH e s1 s2 p) as (s3 & s4 & F & F1 & F2).
    exists s3, s4. rewrite E. split; [exact F|].
    unfold turns_mat. cbn [fold_left]. rewrite fold_mat. fold (turns_mat l).
    rewrite F1, F2, E1, E2. clear.
    generalize (2 * i - (vcols (turn_view t (turns_view l e)) - 1)), (2 * j - (vrows (turn_view t (turns_view l e)) - 1)).
    intros u v. destruct (turns_mat l) as [a1 a2 a3 a4], (turn_mat t) as [b1 b2 b3 b4]; unfold mmul, mid, csrc; cbn [ma mb mc md fst snd]. split; ring.
Qed.

Lemma turns_planes {A} l (e : vexp A) : vplanes (turns_view l e) = vplanes e.
Proof. induction l as [|[]]; simpl; auto. Qed.

(* A signed permutation matrix; quarter turns swap the sides. *)
Lemma turns_dims {A} l (e : vexp A) : let m := turns_mat l in
  (mb m = 0 /\ mc m = 0 /\ Z.abs (ma m) = 1 /\ Z.abs (md m) = 1 /\
   vcols (turns_view l e) = vcols e /\ vrows (turns_view l e) = vrows e) \/
  (ma m = 0 /\ md m = 0 /\ Z.abs (mb m) = 1 /\ Z.abs (mc m) = 1 /\
   vcols (turns_view l e) = vrows e /\ vrows (turns_view l e) = vcols e).
Proof.
  induction l as [|t l IH]; cbv zeta in *.
  - left. unfold turns_mat; cbn [fold_left mid ma mb mc md turns_view fold_right]. auto 10.
  - unfold turns_mat. cbn [fold_left]. rewrite fold_mat. fold (turns_mat l).
    cbn [turns_view fold_right]. fold (turns_view l e).
    destruct (turns_mat l) as [a b c d]. cbn [ma mb mc md] in IH.
    destruct IH as [(Eb & Ec & Ea & Ed & E1 & E2)|(Ea & Ed & Eb & Ec & E1 & E2)]; destruct t;
      cbn [turn_view vcols vrows turn_mat mmul mid ma mb mc md]; lia.
Qed.

(* ---------------- accessors ---------------- *)
(* The accessor that stands at pixel (i,j,p) of view e. *)
Fixpoint at_ {A} (e : vexp A) (i j p : Z) : acc :=
  match e with
  | VImg c r _ buf => APtr (i + j * c + p * (r * c))
  | VRes c r f => APos i j p
  | VCrop ch ci cj _ _ => at_ ch (ci + i) (cj + j) p
  | VSub ch dx dy => at_ ch (dx * i) (dy * j) p
  | VTrans ch => at_ ch j i p
  | VR180 ch => at_ ch (vcols ch - 1 - i) (vrows ch - 1 - j) p
  | VCW ch => at_ ch j (vrows ch - 1 - i) p
  | VCCW ch => at_ ch (vcols ch - 1 - j) i p
  | VFlipV ch => at_ ch i (vrows ch - 1 - j) p
  end.

Lemma at_deref {A} (e : vexp A) : forall i j p, aderef e (at_ e i j p) = vread e i j p.
Proof. induction e; intros; simpl; auto. Qed.

Lemma at_eq {A} (e : vexp A) i j p i' j' p' : i = i' -> j = j' -> p = p' -> at_ e i j p = at_ e i' j' p'.
Proof. intros; subst; reflexivity. Qed.

Lemma at_step {A} (e : vexp A) : forall o i j p,
  astep e o (at_ e i j p) =
  at_ e (i + fst (fst (move o))) (j + snd (fst (move o))) (p + snd (move o)).
Proof.
  induction e; intros o i j pl; cbn [astep at_];
    try (rewrite IHe; destruct o; cbn [move trans_op r180_op cw_op ccw_op flipv_op sub_op fst snd]; apply at_eq; ring).
  - destruct o; cbn [step_ptr move fst snd]; f_equal; ring.
  - destruct o; cbn [step_pos move fst snd]; f_equal; ring.
Qed.

Lemma origin_at {A} (e : vexp A) : aorigin e = at_ e 0 0 0.
Proof.
  induction e; cbn [aorigin at_]; rewrite ?IHe, ?at_step; cbn [move fst snd];
    try reflexivity; apply at_eq; ring.
Qed.

Lemma path_at {A} (e : vexp A) l : forall i j p,
  fold_left (fun a o => astep e o a) l (at_ e i j p) =
  at_ e (i + cols_moved l) (j + rows_moved l) (p + planes_moved l).
Proof.
  induction l as [|o l IH]; intros; simpl.
  - apply at_eq; ring.
  - rewrite at_step, IH. unfold cols_moved, rows_moved, planes_moved; simpl. apply at_eq; ring.
Qed.

Lemma path_read {A} (e : vexp A) l :
  aderef e (fold_left (fun a o => astep e o a) l (aorigin e)) =
  vread e (cols_moved l) (rows_moved l) (planes_moved l).
Proof. rewrite origin_at, path_at, at_deref. reflexivity. Qed.

(* ---------------- memory ---------------- *)
Lemma lset_length {A} (l : list A) n a : length (lset l n a) = length l.
Proof. revert n; induction l; intros [|n]; simpl; auto. Qed.
Lemma lset_nth {A} (l : list A) : forall n m a, (n < length l)%nat ->
  nth_error (lset l n a) m = if Nat.eqb n m then Some a else nth_error l m.
Proof.
  induction l; intros n m b H; simpl in H; [lia|].
  destruct n, m; simpl; auto. apply IHl; lia.
Qed.
Lemma mget_ok {A} (b : list A) k : 0 <= k < Z.of_nat (length b) -> exists v, mget b k = Ok v.
Proof.
  intros H. unfold mget. destruct (Z.ltb_spec k 0); [lia|].
  destruct (nth_error b (Z.to_nat k)) eqn:E; eauto. apply nth_error_None in E. lia.
Qed.
Lemma mset_ok {A} (b : list A) k v : 0 <= k < Z.of_nat (length b) ->
  exists b', mset b k v = Ok b' /\ length b' = length b /\
    forall m, mget b' m = if Z.eqb m k then Ok v else mget b m.
Proof.
  intros H. unfold mset. destruct (Z.ltb_spec k 0); [lia|]. destruct (Z.leb_spec (Z.of_nat (length b)) k); [lia|].
  simpl. eexists; split; [reflexivity|]. split; [apply lset_length|].
  intros m. unfold mget. destruct (Z.eqb_spec m k).
  - subst. destruct (Z.ltb_spec k 0); [lia|]. rewrite lset_nth by lia. rewrite Nat.eqb_refl. reflexivity.
  - destruct (Z.ltb_spec m 0); auto. rewrite lset_nth by lia.
    destruct (Nat.eqb_spec (Z.to_nat k) (Z.to_nat m)); [lia|reflexivity].
Qed.

Fixpoint vbuf {A} (e : vexp A) : list A :=
  match e with
  | VImg _ _ _ buf => buf
  | VRes _ _ _ => []
  | VCrop ch _ _ _ _ | VSub ch _ _ | VTrans ch | VR180 ch | VCW ch | VCCW ch | VFlipV ch => vbuf ch
  end.
Fixpoint setbuf {A} (e : vexp A) (b : list A) : vexp A :=
  match e with
  | VImg c r p _ => VImg c r p b
  | VRes c r f => VRes c r f
  | VCrop ch ci cj di dj => VCrop (setbuf ch b) ci cj di dj
  | VSub ch dx dy => VSub (setbuf ch b) dx dy
  | VTrans ch => VTrans (setbuf ch b)
  | VR180 ch => VR180 (setbuf ch b)
  | VCW ch => VCW (setbuf ch b)
  | VCCW ch => VCCW (setbuf ch b)
  | VFlipV ch => VFlipV (setbuf ch b)
  end.
Fixpoint addr {A} (e : vexp A) (i j p : Z) : Z :=
  match e with
  | VImg c r _ buf => i + j * c + p * (r * c)
  | VRes c r f => -1
  | VCrop ch ci cj _ _ => addr ch (ci + i) (cj + j) p
  | VSub ch dx dy => addr ch (dx * i) (dy * j) p
  | VTrans ch => addr ch j i p
  | VR180 ch => addr ch (vcols ch - 1 - i) (vrows ch - 1 - j) p
  | VCW ch => addr ch j (vrows ch - 1 - i) p
  | VCCW ch => addr ch (vcols ch - 1 - j) i p
  | VFlipV ch => addr ch i (vrows ch - 1 - j) p
  end.

Lemma setbuf_dims {A} (e : vexp A) b : vcols (setbuf e b) = vcols e /\ vrows (setbuf e b) = vrows e /\ vplanes (setbuf e b) = vplanes e.
Proof. induction e; simpl; try tauto; try destruct IHe as (-> & -> & ->); auto. Qed.
Lemma setbuf_cols {A} (e : vexp A) b : vcols (setbuf e b) = vcols e.
Proof. apply setbuf_dims. Qed.
Lemma setbuf_rows {A} (e : vexp A) b : vrows (setbuf e b) = vrows e.
Proof. apply setbuf_dims. Qed.
Lemma setbuf_planes {A} (e : vexp A) b : vplanes (setbuf e b) = vplanes e.
Proof. apply setbuf_dims. Qed.
Lemma setbuf_id {A} (e : vexp A) : setbuf e (vbuf e) = e.
Proof. induction e; simpl; congruence. Qed.
Lemma setbuf_set {A} (e : vexp A) b b' : setbuf (setbuf e b) b' = setbuf e b'.
Proof. induction e; simpl; congruence. Qed.
Lemma vbuf_set {A} (e : vexp A) b : in_memory e -> vbuf (setbuf e b) = b.
Proof. induction e; simpl; auto; tauto. Qed.
Lemma in_mem_set {A} (e : vexp A) b : in_memory e -> in_memory (setbuf e b).
Proof. induction e; simpl; auto. Qed.
Lemma addr_set {A} (e : vexp A) b : forall i j p, addr (setbuf e b) i j p = addr e i j p.
Proof. induction e; intros; simpl; rewrite ?setbuf_cols, ?setbuf_rows; auto. Qed.
Lemma at_set {A} (e : vexp A) b : forall i j p, at_ (setbuf e b) i j p = at_ e i j p.
Proof. induction e; intros; simpl; rewrite ?setbuf_cols, ?setbuf_rows; auto. Qed.
Lemma at_addr {A} (e : vexp A) : in_memory e -> forall i j p, at_ e i j p = APtr (addr e i j p).
Proof. induction e; intros H i j pl; simpl in *; try tauto; auto. Qed.
Lemma vread_addr {A} (e : vexp A) : in_memory e -> forall i j p, vread e i j p = mget (vbuf e) (addr e i j p).
Proof. induction e; intros H i j pl; simpl in *; try tauto; auto. Qed.
Lemma awrite_addr {A} (e : vexp A) v : in_memory e -> forall k,
  awrite e (APtr k) v = (b <- mset (vbuf e) k v ;; Ok (setbuf e b)).
Proof.
  induction e; intros H k; simpl in *; try tauto; try (rewrite IHe by auto; destruct (mset (vbuf e) k v); reflexivity).
Qed.

Lemma sub_range c d i : 0 < c -> 0 < d -> 0 <= i < 1 + Z.quot (c - 1) d -> 0 <= d * i < c.
Proof.
  intros C D H. rewrite Z.quot_div_nonneg in H by lia.
  pose proof (Z.mul_div_le (c - 1) d D).
  remember ((c - 1) / d) as q. assert (d * i <= d * q) by (apply Z.mul_le_mono_nonneg_l; lia). nia.
Qed.

Lemma wf_nonneg {A} (e : vexp A) : well_formed e -> 0 <= vcols e /\ 0 <= vrows e /\ 0 <= vplanes e.
Proof.
  induction e; cbn [vcols vrows vplanes well_formed in_memory addr vbuf]; intros W; try tauto; try lia.
  destruct W as (W & ? & ? & ? & ?). specialize (IHe W). rewrite !Z.quot_div_nonneg by lia.
  assert (0 <= (vcols e - 1) / dx) by (apply Z.div_pos; lia).
  assert (0 <= (vrows e - 1) / dy) by (apply Z.div_pos; lia). lia.
Qed.

Lemma addr_range {A} (e : vexp A) : well_formed e -> in_memory e -> forall i j p, pixel e i j p ->
  0 <= addr e i j p < Z.of_nat (length (vbuf e)).
Proof.
  unfold pixel. induction e; cbn [vcols vrows vplanes well_formed in_memory addr vbuf]; intros W M i j pl (Hi & Hj & Hp); try tauto;
    try (apply IHe; [tauto|auto|lia]).
  - destruct W as (? & ? & ? & ->). assert (0 <= i + j * c < r * c) by nia.
    assert ((pl + 1) * (r * c) <= p * (r * c)) by (apply Z.mul_le_mono_nonneg_r; nia). nia.
  - destruct W as (W & ? & ? & ? & ?). apply IHe; auto.
    split; [apply sub_range; auto|split; [apply sub_range; auto|auto]].
Qed.

Lemma addr_inj {A} (e : vexp A) : well_formed e -> in_memory e -> forall i j p i' j' p',
  pixel e i j p -> pixel e i' j' p' -> addr e i j p = addr e i' j' p' -> i = i' /\ j = j' /\ p = p'.
Proof.
  unfold pixel. induction e; cbn [vcols vrows vplanes well_formed in_memory addr vbuf]; intros W M i j pl i' j' pl' (Hi & Hj & Hp) (Hi' & Hj' & Hp') E; try tauto.
  - destruct W as (? & ? & ? & _).
    assert (X : i + j * c = i' + j' * c /\ pl = pl').
    { destruct (Z.lt_trichotomy pl pl') as [G|[G|G]]; [exfalso|subst; split; lia|exfalso];
      assert (0 <= i + j * c < r * c) by nia; assert (0 <= i' + j' * c < r * c) by nia; nia. }
    destruct X as [X ->].
    destruct (Z.lt_trichotomy j j') as [G|[G|G]]; [exfalso; nia|subst; lia|exfalso; nia].
  - destruct W as (W & ?). destruct (IHe W M (ci + i) (cj + j) pl (ci + i') (cj + j') pl'); try lia.
  - destruct W as (W & ? & ? & ? & ?).
    destruct (IHe W M (dx * i) (dy * j) pl (dx * i') (dy * j') pl');
      try (split; [apply sub_range; auto|split; [apply sub_range; auto|auto]]); auto. nia.
  - destruct (IHe W M j i pl j' i' pl'); try lia.
  - destruct (IHe W M (vcols e - 1 - i) (vrows e - 1 - j) pl (vcols e - 1 - i') (vrows e - 1 - j') pl'); try lia.
  - destruct (IHe W M j (vrows e - 1 - i) pl j' (vrows e - 1 - i') pl'); try lia.
  - destruct (IHe W M (vcols e - 1 - j) i pl (vcols e - 1 - j') i' pl'); try lia.
  - destruct (IHe W M i (vrows e - 1 - j) pl i' (vrows e - 1 - j') pl'); try lia.
Qed.

Lemma wf_set {A} (e : vexp A) b : length b = length (vbuf e) -> well_formed e -> well_formed (setbuf e b).
Proof.
  induction e; cbn [setbuf well_formed vbuf]; intros L W; rewrite ?setbuf_cols, ?setbuf_rows; try tauto.
  rewrite L. auto.
Qed.

Lemma read_ok {A} (e : vexp A) : well_formed e -> forall i j p, pixel e i j p -> exists v, vread e i j p = Ok v.
Proof.
  unfold pixel. induction e; cbn [vcols vrows vplanes well_formed vread]; intros W i j pl (Hi & Hj & Hp);
    try (apply IHe; [tauto|lia]).
  - apply mget_ok. destruct W as (? & ? & ? & ->). assert (0 <= i + j * c < r * c) by nia.
    assert ((pl + 1) * (r * c) <= p * (r * c)) by (apply Z.mul_le_mono_nonneg_r; nia). nia.
  - unfold res_read. destruct (Z.leb_spec 0 i), (Z.ltb_spec i c), (Z.leb_spec 0 j), (Z.ltb_spec j r); try lia.
    simpl. destruct (Z.eqb_spec pl 0); [|lia]. eauto.
  - destruct W as (W & ? & ? & ? & ?). apply IHe; auto.
    split; [apply sub_range; auto|split; [apply sub_range; auto|auto]].
Qed.

(* ---------------- the rasterisation loop ---------------- *)
Section Rast.
  Context {A : Type}.
  Variables (src dest : vexp A) (sx sy : Z).
  Hypothesis M : in_memory dest.

  Fixpoint wr_all (l : list (Z * Z * Z)) (buf : list A) : res (list A) :=
    match l with
    | [] => Ok buf
    | (i, j, p) :: l =>
      v <- vread src (sx + i) (sy + j) p ;;
      buf <- mset buf (addr dest i j p) v ;; wr_all l buf
    end.

  Lemma wr_app l m buf : wr_all (l ++ m) buf = (buf <- wr_all l buf ;; wr_all m buf).
  Proof.
    revert buf; induction l as [|[[i j] p] l IH]; intros; simpl; auto.
    destruct (vread src (sx + i) (sy + j) p); simpl; auto.
    destruct (mset buf (addr dest i j p) a); simpl; auto.
  Qed.

  Definition ad (q : Z * Z * Z) : Z := addr dest (fst (fst q)) (snd (fst q)) (snd q).
  Definition sv (q : Z * Z * Z) : res A := vread src (sx + fst (fst q)) (sy + snd (fst q)) (snd q).

  Lemma wr_spec l : forall buf,
    NoDup (map ad l) ->
    (forall q, In q l -> exists v, sv q = Ok v) ->
    (forall q, In q l -> 0 <= ad q < Z.of_nat (length buf)) ->
    exists buf', wr_all l buf = Ok buf' /\ length buf' = length buf /\
      (forall q, In q l -> mget buf' (ad q) = sv q) /\
      (forall k, ~ In k (map ad l) -> mget buf' k = mget buf k).
  Proof.
    induction l as [|[[i j] p] l IH]; intros buf ND RD RG.
    - exists buf. simpl. repeat split; auto. intros _ [].
    - destruct (RD (i, j, p)) as (v & Ev); [left; auto|]. unfold sv in Ev; simpl in Ev.
      simpl. rewrite Ev. simpl.
      destruct (mset_ok buf (ad (i, j, p)) v) as (b1 & E1 & L1 & G1); [apply RG; left; auto|].
      unfold ad in E1; simpl in E1. rewrite E1. simpl.
      simpl in ND. inversion ND as [|? ? N1 N2]; subst.
      destruct (IH b1 N2) as (b2 & E2 & L2 & G2 & G3).
      + intros; apply RD; right; auto.
      + intros q Hq. rewrite L1. apply RG; right; auto.
      + exists b2. rewrite E2. split; auto. split; [congruence|]. split.
        * intros q [<-|Hq]; auto. rewrite G3 by auto. rewrite G1, Z.eqb_refl.
          unfold sv; simpl. auto.
        * intros k Hk. simpl in Hk. rewrite G3 by tauto. rewrite G1.
          destruct (Z.eqb_spec k (ad (i, j, p))); auto. exfalso; apply Hk; left; auto.
  Qed.

  Definition lift (r : res (list A)) : res (vexp A) := b <- r ;; Ok (setbuf dest b).

  Lemma rast_cols_eq w : forall i j p buf,
    rast_cols src w (at_ src (sx + i) (sy + j) p) (at_ dest i j p) (setbuf dest buf) =
    lift (wr_all (map (fun i => (i, j, p)) (zseq i w)) buf).
  Proof.
    induction w; intros; [reflexivity|].
    cbn [rast_cols zseq map wr_all]. rewrite at_deref. destruct (vread src (sx + i) (sy + j) p); auto.
    cbn [bind lift]. rewrite (at_addr dest) by auto. rewrite awrite_addr by (apply in_mem_set; auto).
    rewrite vbuf_set by auto. destruct (mset buf (addr dest i j p) a); auto. cbn [bind].
    rewrite setbuf_set. rewrite <- (at_addr dest), at_step by auto.
    rewrite <- (at_set dest a0 i j p), at_step, at_set. cbn [move fst snd].
    rewrite <- IHw. rewrite !Z.add_0_r. rewrite Z.add_assoc. reflexivity.
  Qed.

  Lemma rast_rows_eq w h : forall i j p buf,
    rast_rows src w h (at_ src (sx + i) (sy + j) p) (at_ dest i j p) (setbuf dest buf) =
    lift (wr_all (flat_map (fun j => map (fun i => (i, j, p)) (zseq i w)) (zseq j h)) buf).
  Proof.
    induction h; intros; [reflexivity|].
    cbn [rast_rows zseq flat_map]. rewrite rast_cols_eq, wr_app. unfold lift.
    destruct (wr_all (map (fun i0 => (i0, j, p)) (zseq i w)) buf); auto. cbn [bind].
    rewrite at_step. rewrite <- (at_set dest a i j p), at_step, at_set. cbn [move fst snd].
    rewrite !Z.add_0_r. rewrite <- Z.add_assoc. rewrite IHh. reflexivity.
  Qed.

  Lemma rast_planes_eq w h n : forall i j p buf,
    rast_planes src w h n (at_ src (sx + i) (sy + j) p) (at_ dest i j p) (setbuf dest buf) =
    lift (wr_all (flat_map (fun p => flat_map (fun j => map (fun i => (i, j, p)) (zseq i w)) (zseq j h)) (zseq p n)) buf).
  Proof.
    induction n; intros; [reflexivity|].
    cbn [rast_planes zseq flat_map]. rewrite rast_rows_eq, wr_app. unfold lift.
    destruct (wr_all (flat_map (fun j0 => map (fun i0 => (i0, j0, p)) (zseq i w)) (zseq j h)) buf); auto. cbn [bind].
    rewrite at_step. rewrite <- (at_set dest a i j p), at_step, at_set. cbn [move fst snd].
    rewrite !Z.add_0_r. rewrite IHn. reflexivity.
  Qed.
End Rast.

Definition posns (w h n : nat) : list (Z * Z * Z) :=
  flat_map (fun p => flat_map (fun j => map (fun i => (i, j, p)) (zseq 0 w)) (zseq 0 h)) (zseq 0 n).

Lemma in_posns w h n i j p : In (i, j, p) (posns w h n) <->
  0 <= i < Z.of_nat w /\ 0 <= j < Z.of_nat h /\ 0 <= p < Z.of_nat n.
Proof.
  unfold posns. rewrite in_flat_map. split.
  - intros (p' & Hp & H). rewrite in_flat_map in H. destruct H as (j' & Hj & H).
    apply in_map_iff in H. destruct H as (i' & E & Hi). inversion E; subst.
    rewrite in_zseq in *. lia.
  - intros (Hi & Hj & Hp). exists p. split; [apply in_zseq; lia|]. apply in_flat_map.
    exists j. split; [apply in_zseq; lia|]. apply in_map_iff. exists i. split; auto. apply in_zseq; lia.
Qed.

Lemma nodup_flat {A B} (f : A -> list B) (g : B -> A) l :
  NoDup l -> (forall a b, In b (f a) -> g b = a) -> (forall a, NoDup (f a)) -> NoDup (flat_map f l).
Proof.
  intros N G F. induction N; simpl; [constructor|]. apply nodup_app_intro; auto.
  intros y Hy Hy'. apply in_flat_map in Hy'. destruct Hy' as (z & Hz & Hy').
  apply G in Hy. apply G in Hy'. congruence.
Qed.
Lemma nodup_posns w h n : NoDup (posns w h n).
Proof.
  unfold posns. apply nodup_flat with (g := snd); [apply zseq_nodup| |].
  - intros a [[i j] p] H. rewrite in_flat_map in H. destruct H as (j' & Hj & H).
    apply in_map_iff in H. destruct H as (i' & E & Hi). inversion E; auto.
  - intros p. apply nodup_flat with (g := fun q => snd (fst q)); [apply zseq_nodup| |].
    + intros a [[i j] p'] H. apply in_map_iff in H. destruct H as (i' & E & Hi). inversion E; auto.
    + intros j. apply FinFun.Injective_map_NoDup; [|apply zseq_nodup].
      intros a b E. inversion E; auto.
Qed.

Lemma nodup_map_on {A B} (f : A -> B) l :
  NoDup l -> (forall x y, In x l -> In y l -> f x = f y -> x = y) -> NoDup (map f l).
Proof.
  induction 1 as [|x l N ND IH]; intros I; simpl; constructor.
  - intros H. apply in_map_iff in H. destruct H as (y & E & Hy).
    apply I in E; simpl; auto. subst; auto.
  - apply IH. intros; apply I; simpl; auto.
Qed.

Lemma bw_ge0 b : 0 <= bw b.
Proof. apply bw_nonneg. Qed.
Lemma bh_ge0 b : 0 <= bh b.
Proof. unfold bh. destruct (bempty b) eqn:E; [lia|]. apply bempty_false in E. lia. Qed.

(* Rasterising writes exactly the pixels of the destination view. *)
Lemma rasterize_ok {A} (src dest : vexp A) b :
  well_formed dest -> in_memory dest ->
  vcols dest = bw b -> vrows dest = bh b -> vplanes dest = vplanes src ->
  (forall i j p, pixel dest i j p -> exists v, vread src (x0 b + i) (y0 b + j) p = Ok v) ->
  exists buf', rasterize src dest b = Ok (setbuf dest buf') /\ length buf' = length (vbuf dest) /\
    (forall i j p, pixel dest i j p -> mget buf' (addr dest i j p) = vread src (x0 b + i) (y0 b + j) p) /\
    (forall k, (forall i j p, pixel dest i j p -> addr dest i j p <> k) -> mget buf' k = mget (vbuf dest) k).
Proof.
  intros W M Ec Er Ep RD. unfold rasterize.
  rewrite Ec, Er, Ep, !Z.eqb_refl. cbn [andb].
  rewrite (origin_at src), (at_step src). cbn [move fst snd]. rewrite (origin_at dest).
  rewrite !Z.add_0_l.
  replace (at_ src (x0 b) (y0 b) 0) with (at_ src (x0 b + 0) (y0 b + 0) 0) by (apply at_eq; lia).
  pose proof (rast_planes_eq src dest (x0 b) (y0 b) M (Z.to_nat (bw b)) (Z.to_nat (bh b)) (Z.to_nat (vplanes src)) 0 0 0 (vbuf dest)) as Q.
  rewrite setbuf_id in Q. rewrite Q. clear Q. fold (posns (Z.to_nat (bw b)) (Z.to_nat (bh b)) (Z.to_nat (vplanes src))).
  pose proof (bw_ge0 b). pose proof (bh_ge0 b). pose proof (wf_nonneg dest W) as (_ & _ & Pp).
  assert (IN : forall i j p, In (i, j, p) (posns (Z.to_nat (bw b)) (Z.to_nat (bh b)) (Z.to_nat (vplanes src))) <-> pixel dest i j p).
  { intros. rewrite in_posns. unfold pixel. rewrite Ec, Er, <- Ep. rewrite !Z2Nat.id by lia. tauto. }
  destruct (wr_spec src dest (x0 b) (y0 b) (posns (Z.to_nat (bw b)) (Z.to_nat (bh b)) (Z.to_nat (vplanes src))) (vbuf dest))
    as (b' & E & L & G1 & G2).
  - apply nodup_map_on; [apply nodup_posns|].
    intros [[i j] p] [[i' j'] p'] H1 H2 E. unfold ad in E; simpl in E.
    apply IN in H1. apply IN in H2.
    destruct (addr_inj dest W M i j p i' j' p' H1 H2 E) as (-> & -> & ->). reflexivity.
  - intros [[i j] p] Hq. apply IN in Hq. unfold sv; simpl. auto.
  - intros [[i j] p] Hq. apply IN in Hq. unfold ad; simpl. apply addr_range; auto.
  - exists b'. rewrite E. unfold lift. cbn [bind]. split; auto. split; auto. split.
    + intros i j p Hp. apply IN in Hp. apply (G1 _ Hp).
    + intros k Hk. apply G2. intros H1. apply in_map_iff in H1. destruct H1 as ([[i j] p] & E1 & Hq).
      apply IN in Hq. apply (Hk i j p Hq E1).
Qed.

(* ---------------- prerasterisation ---------------- *)
Lemma mem_pre {A} (z : A) (e : vexp A) : in_memory e -> no_sub e -> forall b, prerasterize z e b = Ok e.
Proof.
  induction e; cbn [in_memory no_sub prerasterize]; intros M N b; try tauto; try (rewrite IHe by auto; reflexivity).
Qed.

Lemma mget_map {A} (f : Z -> A) n k : 0 <= k < n -> mget (map f (zrange 0 n)) k = Ok (f k).
Proof.
  intros H. unfold mget. destruct (Z.ltb_spec k 0); [lia|].
  rewrite nth_error_map. unfold zrange.
  rewrite (nth_error_nth' _ 0) by (rewrite zseq_length; lia). simpl.
  rewrite zseq_nth by lia. do 2 f_equal. lia.
Qed.

Definition fits {A} (e : vexp A) (b : box) : Prop :=
  has_pixel b /\ 0 <= x0 b /\ x1 b <= vcols e /\ 0 <= y0 b /\ y1 b <= vrows e.

Definition agrees {A} (e e' : vexp A) (b : box) : Prop :=
  vcols e' = vcols e /\ vrows e' = vrows e /\ vplanes e' = vplanes e /\
  forall i j p, inb b i j -> 0 <= p < vplanes e -> vread e' i j p = vread e i j p.

Lemma bw_of b : has_pixel b -> bw b = x1 b - x0 b.
Proof. intros H. apply bw_nonempty, bempty_false, H. Qed.
Lemma bh_of b : has_pixel b -> bh b = y1 b - y0 b.
Proof. intros H. apply bh_nonempty, bempty_false, H. Qed.
Lemma bshift_of b dx dy : has_pixel b -> bshift b dx dy = Box (x0 b + dx) (y0 b + dy) (x1 b + dx) (y1 b + dy).
Proof. intros H. unfold bshift. rewrite (proj2 (bempty_false b) H). reflexivity. Qed.

Lemma pre_res {A} (z : A) c r f b : fits (VRes c r f) b ->
  exists e', prerasterize z (VRes c r f) b = Ok e' /\ agrees (VRes c r f) e' b.
Proof.
  intros (P & X0 & X1 & Y0 & Y1). cbn [vcols vrows] in *. cbn [prerasterize]. unfold res_rect.
  destruct (Z.leb_spec 0 (x0 b)), (Z.leb_spec (x1 b) c), (Z.leb_spec 0 (y0 b)), (Z.leb_spec (y1 b) r); try lia.
  cbn [andb bind]. eexists. split; [reflexivity|].
  split; [reflexivity|]. split; [reflexivity|]. split; [reflexivity|].
  intros i j p (Hi & Hj) Hp. cbn [vplanes] in Hp. assert (p = 0) by lia. subst p.
  cbn [vread]. rewrite (bw_of b P), (bh_of b P). destruct P as (P1 & P2).
  rewrite mget_map by nia. unfold res_read.
  destruct (Z.leb_spec 0 i), (Z.ltb_spec i c), (Z.leb_spec 0 j), (Z.ltb_spec j r); try lia. simpl.
  f_equal. set (w := x1 b - x0 b).
  replace (- x0 b + i + (- y0 b + j) * w + 0) with ((i - x0 b) + (j - y0 b) * w) by ring.
  rewrite Z.mod_add, Z.div_add by (unfold w; lia).
  rewrite Z.mod_small, Z.div_small by (unfold w; lia). f_equal; lia.
Qed.

Lemma new_img_wf {A} (z : A) c r p : 0 <= c -> 0 <= r -> 0 <= p -> well_formed (new_img z c r p).
Proof. intros. cbn [new_img well_formed]. rewrite repeat_length. nia. Qed.

Lemma ncover_in l x y n : ncover l x y = S n -> exists t, In t l /\ inb t x y.
Proof.
  unfold ncover. intros E. destruct (filter (fun b => inbb b x y) l) as [|t l'] eqn:F; [discriminate|].
  assert (In t (filter (fun b => inbb b x y) l)) by (rewrite F; left; auto).
  apply filter_In in H. destruct H as [H1 H2]. exists t. split; auto.
  unfold inbb in H2. rewrite !andb_true_iff in H2. unfold inb. lia.
Qed.

Section SubPre.
  Context {A : Type}.
  Variables (z : A) (ch : vexp A) (dx dy : Z).
  Hypothesis W : well_formed ch.
  Hypothesis (Dx : 0 < dx) (Dy : 0 < dy) (Pl : vplanes ch = 1).

  (* what the loop over sub-regions does for region t *)
  Definition sub_step (b : box) (buf : res (vexp A)) (t : box) : res (vexp A) :=
    buf <- buf ;;
    pre <- prerasterize z ch (box_of (dx * x0 t) (dy * y0 t)
                                (dx * (bw t - 1) + 1) (dx * (bh t - 1) + 1)) ;;
    let tb := bshift t (- x0 b) (- y0 b) in
    d <- rasterize (VSub pre dx dy) (VCrop buf (x0 tb) (y0 tb) (bw tb) (bh tb)) t ;;
    Ok (leaf d).

  Lemma sub_step_ok b buf t :
    has_pixel b -> has_pixel t -> subset t b ->
    (exists pre, prerasterize z ch (box_of (dx * x0 t) (dy * y0 t) (dx * (bw t - 1) + 1) (dx * (bh t - 1) + 1)) = Ok pre /\
       vplanes pre = 1 /\
       forall i j, inb t i j -> exists v, vread pre (dx * i) (dy * j) 0 = Ok v /\ vread ch (dx * i) (dy * j) 0 = Ok v) ->
    Z.of_nat (length buf) = bw b * bh b ->
    exists buf', sub_step b (Ok (VImg (bw b) (bh b) 1 buf)) t = Ok (VImg (bw b) (bh b) 1 buf') /\
      Z.of_nat (length buf') = bw b * bh b /\
      (forall x y, inb t x y -> mget buf' ((x - x0 b) + (y - y0 b) * bw b) = vread ch (dx * x) (dy * y) 0) /\
      (forall x y, inb b x y -> ~ inb t x y -> mget buf' ((x - x0 b) + (y - y0 b) * bw b) = mget buf ((x - x0 b) + (y - y0 b) * bw b)).
  Proof.
    intros Pb Pt S (pre & Epre & Ppre & R) L.
    assert (S1 : x0 b <= x0 t /\ y0 b <= y0 t).
    { destruct Pt. specialize (S (x0 t) (y0 t)). unfold inb in S. lia. }
    assert (S2 : x1 t <= x1 b /\ y1 t <= y1 b).
    { destruct Pt. specialize (S (x1 t - 1) (y1 t - 1)). unfold inb in S. lia. }
    unfold sub_step. cbn [bind]. rewrite Epre. cbn [bind]. cbv zeta. rewrite bshift_of by auto.
    set (tb := Box (x0 t + - x0 b) (y0 t + - y0 b) (x1 t + - x0 b) (y1 t + - y0 b)).
    assert (Ptb : has_pixel tb) by (destruct Pt; unfold has_pixel; simpl; lia).
    assert (Bw : bw tb = x1 t - x0 t) by (rewrite bw_of by auto; simpl; lia).
    assert (Bh : bh tb = y1 t - y0 t) by (rewrite bh_of by auto; simpl; lia).
    set (dst := VCrop (VImg (bw b) (bh b) 1 buf) (x0 tb) (y0 tb) (bw tb) (bh tb)).
    pose proof (bw_of b Pb) as Bb. pose proof (bh_of b Pb) as Hb.
    destruct (rasterize_ok (VSub pre dx dy) dst t) as (buf' & E & L' & G1 & G2).
    - unfold dst, tb in *; cbn [well_formed vcols vrows x0 y0]. rewrite Bw, Bh, Bb, Hb, L. destruct Pt. repeat split; lia.
    - exact I.
    - unfold dst; cbn [vcols]. rewrite Bw, bw_of by auto. reflexivity.
    - unfold dst; cbn [vrows]. rewrite Bh, bh_of by auto. reflexivity.
    - unfold dst; cbn [vplanes]. auto.
    - intros i j p. unfold pixel, dst; cbn [vcols vrows vplanes]. rewrite Bw, Bh. intros (Hi & Hj & Hp).
      assert (p = 0) by lia; subst. cbn [vread].
      destruct (R (x0 t + i) (y0 t + j)) as (v & Ev & _); [unfold inb; lia|]. eauto.
    - rewrite E. cbn [bind]. unfold dst at 1. cbn [setbuf leaf]. exists buf'.
      split; [reflexivity|]. split; [rewrite L'; exact L|]. split.
      + intros x y H. specialize (G1 (x - x0 t) (y - y0 t) 0).
        destruct (R x y H) as (v & Ev & Ev').
        unfold dst, pixel, tb in G1; cbn [addr x0 y0 vcols vrows vplanes vread] in G1.
        replace (x0 t + (x - x0 t)) with x in G1 by lia. replace (y0 t + (y - y0 t)) with y in G1 by lia.
        rewrite Ev' , <- Ev, <- G1.
        * f_equal. ring.
        * fold tb. rewrite Bw, Bh. unfold inb in H. lia.
      + intros x y Hb' Ht. rewrite G2; [reflexivity|].
        intros i j p. unfold dst, pixel, tb; cbn [addr x0 y0 vcols vrows vplanes]. fold tb. rewrite Bw, Bh.
        intros (Hi & Hj & Hp) E1. assert (p = 0) by lia; subst p. apply Ht.
        unfold inb in *. rewrite Bb in E1.
        assert (y - y0 b = y0 t + - y0 b + j) by nia.
        assert (x - x0 b = x0 t + - x0 b + i) by nia. lia.
  Qed.

  Lemma sub_fold_ok b : has_pixel b -> forall l buf,
    (forall t, In t l -> has_pixel t /\ subset t b /\
      exists pre, prerasterize z ch (box_of (dx * x0 t) (dy * y0 t) (dx * (bw t - 1) + 1) (dx * (bh t - 1) + 1)) = Ok pre /\
       vplanes pre = 1 /\
       forall i j, inb t i j -> exists v, vread pre (dx * i) (dy * j) 0 = Ok v /\ vread ch (dx * i) (dy * j) 0 = Ok v) ->
    Z.of_nat (length buf) = bw b * bh b ->
    exists buf', fold_left (sub_step b) l (Ok (VImg (bw b) (bh b) 1 buf)) = Ok (VImg (bw b) (bh b) 1 buf') /\
      Z.of_nat (length buf') = bw b * bh b /\
      (forall x y, inb b x y -> (exists t, In t l /\ inb t x y) ->
         mget buf' ((x - x0 b) + (y - y0 b) * bw b) = vread ch (dx * x) (dy * y) 0) /\
      (forall x y, inb b x y -> ~ (exists t, In t l /\ inb t x y) ->
         mget buf' ((x - x0 b) + (y - y0 b) * bw b) = mget buf ((x - x0 b) + (y - y0 b) * bw b)).
  Proof.
    intros Pb. induction l as [|t l IH]; intros buf H L.
    - exists buf. simpl. repeat split; auto. intros x y _ (t & [] & _).
    - destruct (H t) as (Pt & St & Rt); [left; auto|].
      destruct (sub_step_ok b buf t Pb Pt St Rt L) as (b1 & E1 & L1 & G1 & G2).
      destruct (IH b1) as (b2 & E2 & L2 & G3 & G4); auto.
      { intros; apply H; right; auto. }
      exists b2. cbn [fold_left]. rewrite E1. split; auto. split; auto.
      assert (D : forall x y, {inb t x y} + {~ inb t x y}).
      { intros x y. unfold inb. destruct (Z_le_dec (x0 t) x), (Z_lt_dec x (x1 t)), (Z_le_dec (y0 t) y), (Z_lt_dec y (y1 t));
          try (left; lia); right; lia. }
      assert (DL : forall x y, (exists t, In t l /\ inb t x y) \/ ~ exists t, In t l /\ inb t x y).
      { intros x y. destruct (existsb (fun t => inbb t x y) l) eqn:E.
        - left. apply existsb_exists in E. destruct E as (s & ? & E). exists s. split; auto.
          unfold inbb in E. rewrite !andb_true_iff in E. unfold inb. lia.
        - right. intros (s & Hs & I). rewrite <- not_true_iff_false, existsb_exists in E. apply E.
          exists s. split; auto. unfold inbb, inb in *. rewrite !andb_true_iff. lia. }
      split.
      + intros x y Hb (s & [<-|Hs] & I).
        * destruct (DL x y) as [Y|N]; [apply G3; auto|]. rewrite G4 by auto. apply G1; auto.
        * apply G3; auto. eauto.
      + intros x y Hb N. rewrite G4; auto.
        * apply G2; auto. intros I. apply N. exists t. split; [left; auto|auto].
        * intros (s & Hs & I). apply N. exists s. split; [right; auto|auto].
  Qed.
End SubPre.

Lemma pre_ok {A} (z : A) (e : vexp A) : well_formed e -> sub_safe e -> forall b, fits e b ->
  exists e', prerasterize z e b = Ok e' /\ agrees e e' b.
Proof.
  induction e as [c r p buf|c r f|ch IH ci cj di dj|ch IH dx dy|ch IH|ch IH|ch IH|ch IH|ch IH]; intros W S b F.
  - eexists; split; [reflexivity|]. repeat split; auto.
  - apply pre_res; auto.
  - destruct W as (W & ? & ? & ? & ? & ? & ?). pose proof F as (P & F1 & F2 & F3 & F4). cbn [vcols vrows] in *.
    destruct (IH W S (bshift b ci cj)) as (e' & E & E1 & E2 & E3 & E4).
    { rewrite bshift_of by auto. destruct P. unfold fits, has_pixel. simpl. lia. }
    cbn [prerasterize]. rewrite E. eexists; split; [reflexivity|]. unfold agrees. cbn [vcols vrows vplanes vread].
    repeat split; auto. intros i j p I Hp. apply E4; auto. rewrite bshift_of by auto. unfold inb in *; simpl; lia.
  - destruct W as (W & Dx & Dy & C & R). destruct S as (S & Pl & Q). pose proof F as (P & F1 & F2 & F3 & F4).
    cbn [prerasterize]. 
    set (sx := Z.quot (bw b) dx). set (sy := Z.quot (bh b) dy). cbv zeta.
    set (sx' := if sx <? 2 then 2 else sx). set (sy' := if sy <? 2 then 2 else sy).
    destruct (subdivide_partition b sx' sy') as (l & El & Pt & T).
    { unfold sx'. destruct (Z.ltb_spec sx 2); lia. }
    { unfold sy'. destruct (Z.ltb_spec sy 2); lia. }
    rewrite El. cbn [bind].
    destruct (sub_fold_ok z ch dx dy b P l (repeat z (Z.to_nat (bw b * bh b * 1)))) as (buf' & E & L & G1 & G2).
    { intros t Ht. destruct (T t Ht) as (Pt' & _ & _ & St). split; auto. split; auto.
      assert (S1 : x0 b <= x0 t /\ y0 b <= y0 t).
      { destruct Pt'. specialize (St (x0 t) (y0 t)). unfold inb in St. lia. }
      assert (S2 : x1 t <= x1 b /\ y1 t <= y1 b).
      { destruct Pt'. specialize (St (x1 t - 1) (y1 t - 1)). unfold inb in St. lia. }
      cbn [vcols vrows] in F2, F4.
      assert (RD : forall i j, inb t i j -> exists v, vread ch (dx * i) (dy * j) 0 = Ok v).
      { intros i j I. unfold inb in I. apply read_ok; auto. unfold pixel.
        split; [apply sub_range; lia|split; [apply sub_range; lia|lia]]. }
      destruct Q as [<-|[M N]].
      - destruct (IH W S (box_of (dx * x0 t) (dx * y0 t) (dx * (bw t - 1) + 1) (dx * (bh t - 1) + 1)))
          as (pre & E & E1 & E2 & E3 & E4).
        { rewrite bw_of, bh_of by auto. unfold fits, has_pixel, box_of; cbn [x0 y0 x1 y1].
          destruct Pt'.
          pose proof (sub_range (vcols ch) dx (x1 t - 1) C Dx).
          pose proof (sub_range (vrows ch) dx (y1 t - 1) R Dx). nia. }
        exists pre. split; auto. split; [congruence|]. intros i j I.
        destruct (RD i j I) as (v & Ev). exists v. split; auto. rewrite E4; auto; [|lia].
        rewrite bw_of, bh_of by auto. unfold inb, box_of in *; cbn [x0 y0 x1 y1]. nia.
      - exists ch. rewrite mem_pre by auto. split; auto. split; auto. intros i j I.
        destruct (RD i j I) as (v & Ev). eauto. }
    { rewrite repeat_length. pose proof (bw_ge0 b). pose proof (bh_ge0 b). nia. }
    unfold sub_step in E. cbv zeta in E. unfold new_img. rewrite E. cbn [bind].
    eexists; split; [reflexivity|]. unfold agrees.
    split; [reflexivity|]. split; [reflexivity|]. split; [cbn [vplanes]; auto|].
    intros i j p I Hp. cbn [vplanes] in Hp. assert (p = 0) by lia; subst p.
    cbn [vread]. rewrite <- G1; auto.
    + f_equal. ring.
    + destruct (Pt i j) as [P1 _]. apply ncover_in with (n := 0%nat). apply P1; auto.
  - cbn [sub_safe well_formed] in *. pose proof F as (P & F1 & F2 & F3 & F4). cbn [vcols vrows] in *.
    destruct (IH W S (box_of (y0 b) (x0 b) (bh b) (bw b))) as (e' & E & E1 & E2 & E3 & E4).
    { rewrite bw_of, bh_of by auto. destruct P. unfold fits, has_pixel, box_of. simpl. lia. }
    cbn [prerasterize]. rewrite E. eexists; split; [reflexivity|]. unfold agrees. cbn [vcols vrows vplanes vread].
    repeat split; auto. intros i j p I Hp. apply E4; auto. rewrite bw_of, bh_of by auto. unfold inb, box_of in *; simpl; lia.
  - cbn [sub_safe well_formed] in *. pose proof F as (P & F1 & F2 & F3 & F4). cbn [vcols vrows] in *.
    destruct (IH W S (box_of (vcols ch - x1 b) (vrows ch - y1 b) (bw b) (bh b))) as (e' & E & E1 & E2 & E3 & E4).
    { rewrite bw_of, bh_of by auto. destruct P. unfold fits, has_pixel, box_of. cbn [x0 y0 x1 y1]. lia. }
    cbn [prerasterize]. rewrite E. eexists; split; [reflexivity|]. unfold agrees. cbn [vcols vrows vplanes vread].
    repeat split; auto. intros i j p I Hp. rewrite E1, E2. apply E4; auto. rewrite bw_of, bh_of by auto. unfold inb, box_of in *; cbn [x0 y0 x1 y1]; lia.
  - cbn [sub_safe well_formed] in *. pose proof F as (P & F1 & F2 & F3 & F4). cbn [vcols vrows] in *.
    destruct (IH W S (box_of (y0 b) (vrows ch - x1 b) (bh b) (bw b))) as (e' & E & E1 & E2 & E3 & E4).
    { rewrite bw_of, bh_of by auto. destruct P. unfold fits, has_pixel, box_of. cbn [x0 y0 x1 y1]. lia. }
    cbn [prerasterize]. rewrite E. eexists; split; [reflexivity|]. unfold agrees. cbn [vcols vrows vplanes vread].
    repeat split; auto. intros i j p I Hp. rewrite E2. apply E4; auto. rewrite bw_of, bh_of by auto. unfold inb, box_of in *; cbn [x0 y0 x1 y1]; lia.
  - cbn [sub_safe well_formed] in *. pose proof F as (P & F1 & F2 & F3 & F4). cbn [vcols vrows] in *.
    destruct (IH W S (box_of (vcols ch - y1 b) (x0 b) (bh b) (bw b))) as (e' & E & E1 & E2 & E3 & E4).
    { rewrite bw_of, bh_of by auto. destruct P. unfold fits, has_pixel, box_of. cbn [x0 y0 x1 y1]. lia. }
    cbn [prerasterize]. rewrite E. eexists; split; [reflexivity|]. unfold agrees. cbn [vcols vrows vplanes vread].
    repeat split; auto. intros i j p I Hp. rewrite E1. apply E4; auto. rewrite bw_of, bh_of by auto. unfold inb, box_of in *; cbn [x0 y0 x1 y1]; lia.
  - cbn [sub_safe well_formed] in *. pose proof F as (P & F1 & F2 & F3 & F4). cbn [vcols vrows] in *.
    destruct (IH W S (box_of (x0 b) (vrows ch - y1 b) (bw b) (bh b))) as (e' & E & E1 & E2 & E3 & E4).
    { rewrite bw_of, bh_of by auto. destruct P. unfold fits, has_pixel, box_of. cbn [x0 y0 x1 y1]. lia. }
    cbn [prerasterize]. rewrite E. eexists; split; [reflexivity|]. unfold agrees. cbn [vcols vrows vplanes vread].
    repeat split; auto. intros i j p I Hp. rewrite E2. apply E4; auto. rewrite bw_of, bh_of by auto. unfold inb, box_of in *; cbn [x0 y0 x1 y1]; lia.
Qed.
