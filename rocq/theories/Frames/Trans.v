(** Lemmas on transforms. *)
From Coq Require Import List Arith Bool ZArith Lia QArith Qcanon Field.
From Verif Require Import Lib.Base Lib.Lists Lib.Img Lib.QSum Sky.Spec MInv.Model MInv.Spec MInv.Proofs MInv.Solve
  Tree.Model Tree.Spec Tree.Proofs Tree.Trees Tree.Copy Tree.Props
  Frames.Model Frames.Spec Frames.Above Frames.Store Frames.Merge Frames.Calls Frames.ATrans Frames.TSpec.
Import ListNotations.
Local Open Scope Qc_scope.

Ltac rec_ring := cbv [aat amul mv mm vadd vneg dot times_cols c0 c1 c2 vx vy vz r0 r1 r2 tp tr aone];
  repeat match goal with |- AT _ _ = AT _ _ => f_equal | |- M3 _ _ _ = M3 _ _ _ => f_equal | |- V3 _ _ _ = V3 _ _ _ => f_equal end; ring.

Lemma v3_inj a b c a' b' c' : V3 a b c = V3 a' b' c' -> a = a' /\ b = b' /\ c = c'.
Proof. intros H. split; [exact (f_equal vx H)|]. split; [exact (f_equal vy H)|exact (f_equal vz H)]. Qed.

Lemma ok_inj {A} (a b : A) : Ok a = Ok b -> a = b.
Proof. congruence. Qed.

Lemma mul_at a b v : aat (amul a b) v = aat a (aat b v).
Proof. destruct a as [[] [[] [] []]], b as [[] [[] [] []]], v. rec_ring. Qed.

Lemma one_at v : aat aone v = v.
Proof. destruct v. rec_ring. Qed.

Lemma at_ext a b : (forall v, aat a v = aat b v) -> a = b.
Proof.
  intros H. pose proof (H (V3 0 0 0)) as H0. pose proof (H (V3 1 0 0)) as H1. pose proof (H (V3 0 1 0)) as H2. pose proof (H (V3 0 0 1)) as H3.
  clear H. destruct a as [[p0 p1 p2] [[a0 a1 a2] [a3 a4 a5] [a6 a7 a8]]], b as [[q0 q1 q2] [[b0 b1 b2] [b3 b4 b5] [b6 b7 b8]]].
  cbv [aat mv vadd dot vx vy vz r0 r1 r2 tp tr] in H0, H1, H2, H3.
  apply v3_inj in H0 as (P0 & P1 & P2). apply v3_inj in H1 as (X0 & X1 & X2).
  apply v3_inj in H2 as (Y0 & Y1 & Y2). apply v3_inj in H3 as (Z0 & Z1 & Z2).
  assert (K0 : p0 = q0) by (etransitivity; [|etransitivity; [exact P0|]]; ring).
  assert (K1 : p1 = q1) by (etransitivity; [|etransitivity; [exact P1|]]; ring).
  assert (K2 : p2 = q2) by (etransitivity; [|etransitivity; [exact P2|]]; ring).
  subst q0 q1 q2. clear P0 P1 P2.
  assert (C : forall x y p : Qc, x + p = y + p -> x = y).
  { intros x y p E. replace x with (x + p - p) by ring. rewrite E. ring. }
  apply C in X0, X1, X2, Y0, Y1, Y2, Z0, Z1, Z2.
  assert (L0 : forall x y z : Qc, x * 1 + y * 0 + z * 0 = x) by (intros; ring).
  assert (L1 : forall x y z : Qc, x * 0 + y * 1 + z * 0 = y) by (intros; ring).
  assert (L2 : forall x y z : Qc, x * 0 + y * 0 + z * 1 = z) by (intros; ring).
  rewrite !L0 in X0, X1, X2. rewrite !L1 in Y0, Y1, Y2. rewrite !L2 in Z0, Z1, Z2. subst. reflexivity.
Qed.

Lemma mul_assoc a b c : amul a (amul b c) = amul (amul a b) c.
Proof. apply at_ext. intros v. rewrite !mul_at. reflexivity. Qed.
Lemma mul_one_l a : amul aone a = a.
Proof. apply at_ext. intros v. rewrite mul_at, one_at. reflexivity. Qed.
Lemma mul_one_r a : amul a aone = a.
Proof. apply at_ext. intros v. rewrite mul_at, one_at. reflexivity. Qed.

Lemma identity_one : of_matrix (identity 4) = Ok aone.
Proof. reflexivity. Qed.

(** ** The inverse *)
Lemma qsum3 f : qsum 0 3 f = f 0%Z + f 1%Z + f 2%Z.
Proof. rewrite !qsum_cons by lia. rewrite qsum_nil by lia. cbn [Z.add Pos.add Pos.succ]. ring. Qed.

Lemma matrix_of_is m : is_matrix 3 3 (matrix_of m).
Proof. split; reflexivity. Qed.

Lemma mat_of_ok x : is_matrix 3 3 x -> mat_of x = Ok (M3 (V3 (entry x 0 0) (entry x 0 1) (entry x 0 2))
  (V3 (entry x 1 0) (entry x 1 1) (entry x 1 2)) (V3 (entry x 2 0) (entry x 2 1) (entry x 2 2))).
Proof. intros M. unfold mat_of, row_of. rewrite !(mget_ok 3 3) by (auto; lia). reflexivity. Qed.

Lemma of_triple (P : Z -> Prop) : P 0%Z -> P 1%Z -> P 2%Z -> forall i, (0 <= i < 3)%Z -> P i.
Proof. intros A B C i I. assert (i = 0 \/ i = 1 \/ i = 2)%Z as [->|[->| ->]] by lia; assumption. Qed.

Definition injective (a : atrans) : Prop := forall v v', aat a v = aat a v' -> v = v'.

Lemma ainv_cases a :
  (exists b, ainv a = Ok b /\ (forall v, aat a (aat b v) = v) /\ (forall v, aat b (aat a v) = v)) \/
  (ainv a = Throw OtherErr /\ ~ injective a).
Proof.
  unfold ainv. destruct (inverse_ok 3 (matrix_of (tr a)) ltac:(lia) (matrix_of_is _)) as [(x & -> & M & _ & A & B)|(-> & x & s & Hs & Xs & S)].
  - left. cbn [bind]. rewrite (mat_of_ok x M). cbn [bind]. eexists. split; [reflexivity|].
    assert (A' : forall i j, (0 <= i < 3)%Z -> (0 <= j < 3)%Z -> entry (matrix_of (tr a)) i 0 * entry x 0 j + entry (matrix_of (tr a)) i 1 * entry x 1 j +
      entry (matrix_of (tr a)) i 2 * entry x 2 j = ident i j) by (intros i j I J; rewrite <- (A i j I J), qsum3; reflexivity).
    assert (B' : forall i j, (0 <= i < 3)%Z -> (0 <= j < 3)%Z -> entry x i 0 * entry (matrix_of (tr a)) 0 j + entry x i 1 * entry (matrix_of (tr a)) 1 j +
      entry x i 2 * entry (matrix_of (tr a)) 2 j = ident i j) by (intros i j I J; rewrite <- (B i j I J), qsum3; reflexivity).
    clear A B.
    pose proof (A' 0 0 ltac:(lia) ltac:(lia))%Z as A00. pose proof (A' 0 1 ltac:(lia) ltac:(lia))%Z as A01. pose proof (A' 0 2 ltac:(lia) ltac:(lia))%Z as A02.
    pose proof (A' 1 0 ltac:(lia) ltac:(lia))%Z as A10. pose proof (A' 1 1 ltac:(lia) ltac:(lia))%Z as A11. pose proof (A' 1 2 ltac:(lia) ltac:(lia))%Z as A12.
    pose proof (A' 2 0 ltac:(lia) ltac:(lia))%Z as A20. pose proof (A' 2 1 ltac:(lia) ltac:(lia))%Z as A21. pose proof (A' 2 2 ltac:(lia) ltac:(lia))%Z as A22.
    pose proof (B' 0 0 ltac:(lia) ltac:(lia))%Z as B00. pose proof (B' 0 1 ltac:(lia) ltac:(lia))%Z as B01. pose proof (B' 0 2 ltac:(lia) ltac:(lia))%Z as B02.
    pose proof (B' 1 0 ltac:(lia) ltac:(lia))%Z as B10. pose proof (B' 1 1 ltac:(lia) ltac:(lia))%Z as B11. pose proof (B' 1 2 ltac:(lia) ltac:(lia))%Z as B12.
    pose proof (B' 2 0 ltac:(lia) ltac:(lia))%Z as B20. pose proof (B' 2 1 ltac:(lia) ltac:(lia))%Z as B21. pose proof (B' 2 2 ltac:(lia) ltac:(lia))%Z as B22.
    clear A' B'. destruct a as [[p0 p1 p2] [[a0 a1 a2] [a3 a4 a5] [a6 a7 a8]]].
    unfold entry, matrix_of, ident, vget in *. cbn [pix tr Z.eqb Pos.eqb r0 r1 r2 vx vy vz] in *.
    set (x0 := pix x 0%Z 0%Z) in *. clearbody x0. set (x1 := pix x 1%Z 0%Z) in *. clearbody x1. set (x2 := pix x 2%Z 0%Z) in *. clearbody x2.
    set (x3 := pix x 0%Z 1%Z) in *. clearbody x3. set (x4 := pix x 1%Z 1%Z) in *. clearbody x4. set (x5 := pix x 2%Z 1%Z) in *. clearbody x5.
    set (x6 := pix x 0%Z 2%Z) in *. clearbody x6. set (x7 := pix x 1%Z 2%Z) in *. clearbody x7. set (x8 := pix x 2%Z 2%Z) in *. clearbody x8.
    split; intros [v0 v1 v2]; cbv [aat mv vadd vneg dot vx vy vz r0 r1 r2 tp tr]; f_equal.
    + transitivity ((a0 * x0 + a1 * x3 + a2 * x6) * (v0 - p0) + (a0 * x1 + a1 * x4 + a2 * x7) * (v1 - p1) + (a0 * x2 + a1 * x5 + a2 * x8) * (v2 - p2) + p0); [ring|rewrite A00, A01, A02; ring].
    + transitivity ((a3 * x0 + a4 * x3 + a5 * x6) * (v0 - p0) + (a3 * x1 + a4 * x4 + a5 * x7) * (v1 - p1) + (a3 * x2 + a4 * x5 + a5 * x8) * (v2 - p2) + p1); [ring|rewrite A10, A11, A12; ring].
    + transitivity ((a6 * x0 + a7 * x3 + a8 * x6) * (v0 - p0) + (a6 * x1 + a7 * x4 + a8 * x7) * (v1 - p1) + (a6 * x2 + a7 * x5 + a8 * x8) * (v2 - p2) + p2); [ring|rewrite A20, A21, A22; ring].
    + transitivity ((x0 * a0 + x1 * a3 + x2 * a6) * v0 + (x0 * a1 + x1 * a4 + x2 * a7) * v1 + (x0 * a2 + x1 * a5 + x2 * a8) * v2); [ring|rewrite B00, B01, B02; ring].
    + transitivity ((x3 * a0 + x4 * a3 + x5 * a6) * v0 + (x3 * a1 + x4 * a4 + x5 * a7) * v1 + (x3 * a2 + x4 * a5 + x5 * a8) * v2); [ring|rewrite B10, B11, B12; ring].
    + transitivity ((x6 * a0 + x7 * a3 + x8 * a6) * v0 + (x6 * a1 + x7 * a4 + x8 * a7) * v1 + (x6 * a2 + x7 * a5 + x8 * a8) * v2); [ring|rewrite B20, B21, B22; ring].
  - right. cbn [bind]. split; [reflexivity|]. intros J.
    assert (E : V3 (x 0%Z) (x 1%Z) (x 2%Z) = V3 0 0 0).
    { apply J. pose proof (S 0 ltac:(lia))%Z as S0. pose proof (S 1 ltac:(lia))%Z as S1. pose proof (S 2 ltac:(lia))%Z as S2.
      unfold times in S0, S1, S2. rewrite qsum3 in S0, S1, S2. clear - S0 S1 S2.
      destruct a as [[p0 p1 p2] [[a0 a1 a2] [a3 a4 a5] [a6 a7 a8]]].
      unfold entry, matrix_of, vget in *. cbn [pix tr Z.eqb Pos.eqb r0 r1 r2 vx vy vz] in *.
      cbv [aat mv vadd dot vx vy vz r0 r1 r2 tp tr]. rewrite S0, S1, S2. f_equal; ring. }
    apply v3_inj in E as (E0 & E1 & E2). assert (s = 0 \/ s = 1 \/ s = 2)%Z as [H|[H|H]] by lia; rewrite H in Xs; rewrite Xs in *; discriminate.
Qed.

Lemma invertible_injective a : invertible a -> injective a.
Proof. intros I v v' E. destruct (I (aat a v')) as (u & _ & U). rewrite (U v E), (U v' eq_refl). reflexivity. Qed.

Lemma inverse_invertible a b : (forall v, aat a (aat b v) = v) -> (forall v, aat b (aat a v) = v) -> invertible a.
Proof. intros A B w. exists (aat b w). split; [apply A|]. intros v' <-. symmetry. apply B. Qed.

Lemma injective_invertible a : injective a -> invertible a.
Proof. intros J. destruct (ainv_cases a) as [(b & _ & A & B)|(_ & N)]; [exact (inverse_invertible a b A B)|contradiction]. Qed.

Lemma invertible_dec a : {invertible a} + {~ invertible a}.
Proof.
  destruct (ainv a) as [b|e|u] eqn:E.
  - left. destruct (ainv_cases a) as [(b' & _ & A & B)|(E' & _)]; [exact (inverse_invertible _ _ A B)|congruence].
  - right. intros I. destruct (ainv_cases a) as [(b' & E' & A & B)|(E' & N)]; [congruence|apply N, invertible_injective, I].
  - right. intros I. destruct (ainv_cases a) as [(b' & E' & A & B)|(E' & N)]; congruence.
Qed.

Lemma invertible_mul a b : invertible (amul a b) <-> invertible a /\ invertible b.
Proof.
  split.
  - intros I. assert (Ib : invertible b).
    { apply injective_invertible. intros v v' E. apply (invertible_injective _ I). rewrite !mul_at, E. reflexivity. }
    split; [|exact Ib]. apply injective_invertible. intros v v' E. destruct (Ib v) as (u & <- & _). destruct (Ib v') as (u' & <- & _).
    f_equal. apply (invertible_injective _ I). rewrite !mul_at. exact E.
  - intros (Ia & Ib). apply injective_invertible. intros v v' E. rewrite !mul_at in E.
    apply (invertible_injective _ Ib), (invertible_injective _ Ia), E.
Qed.

Lemma invertible_one : invertible aone.
Proof. intros w. exists w. split; [apply one_at|]. intros v' <-. symmetry. apply one_at. Qed.

(** ** Products along a branch *)
Definition chain (h : heap (frame atrans)) l f : Prop := forall loc, multiplied amul h l loc = Ok (amul loc f).

Lemma chain_nil h : chain h [] aone.
Proof. intros loc. cbn [multiplied]. rewrite mul_one_r. reflexivity. Qed.

Lemma chain_snoc h l f n d : chain h l f -> data h n = Ok d -> chain h (l ++ [n]) (amul f (ftrans d)).
Proof.
  intros C D loc.
  assert (X : forall l loc, multiplied amul h (l ++ [n]) loc = (g <- multiplied amul h l loc ;; Ok (amul g (ftrans d)))).
  { clear - D. induction l as [|m l IH]; intros loc; cbn [app multiplied].
    - rewrite D. reflexivity.
    - destruct (data h m); cbn [bind]; [apply IH|reflexivity|reflexivity]. }
  rewrite X, C. cbn [bind]. rewrite mul_assoc. reflexivity.
Qed.

Lemma after_absent a l : ~ In a l -> forall m, after a (l ++ [m]) = if Nat.eqb m a then [] else [].
Proof.
  induction l as [|x l IH]; intros N m; cbn [app after].
  - destruct (Nat.eqb m a); reflexivity.
  - destruct (Nat.eqb_spec x a) as [->|_]; [exfalso; apply N; left; reflexivity|]. apply IH. intros I. apply N. right. exact I.
Qed.

Lemma after_snoc a l m : In a l -> after a (l ++ [m]) = after a l ++ [m].
Proof.
  induction l as [|x l IH]; intros I; [destruct I|]. cbn [app after]. destruct (Nat.eqb_spec x a) as [|H]; [reflexivity|].
  destruct I as [|I]; [contradiction|]. exact (IH I).
Qed.

Lemma segment h a n : grown h -> above h a n -> forall lp, path h n lp -> exists f,
  chain h (after a (rev lp)) f /\ (forall v w, carried h n v w <-> carried h a (aat f v) w) /\
  (invertible f <-> forall m d, above h a m -> above h m n -> m <> a -> data h m = Ok d -> invertible (ftrans d)).
Proof.
  intros G. induction 1 as [n L|a p n P A IH]; intros lp Hp.
  - destruct (path_head h n lp Hp) as (l' & ->). cbn [rev]. exists aone.
    pose proof (path_nodup h n _ Hp) as ND. inversion ND as [|? ? N _]; subst.
    rewrite after_absent by (rewrite <- in_rev; exact N). rewrite Nat.eqb_refl. split; [apply chain_nil|].
    split; [intros v w; rewrite one_at; tauto|]. split; [|intros _; exact invertible_one].
    intros _ m d B C Hm. exfalso. exact (Hm (above_anti h m n G C B)).
  - inversion Hp as [? P'|? q l Q Hl]; subst; [congruence|]. assert (q = p) by congruence. subst q.
    destruct (IH l Hl) as (f & C & K & V). cbn [rev].
    rewrite after_snoc by (rewrite <- in_rev; apply (path_above h p l Hl); exact A).
    assert (D : exists d, data h n = Ok d) by (apply live_data; exact (parent_live _ _ _ P)). destruct D as (d & D).
    exists (amul f (ftrans d)). split; [exact (chain_snoc h _ f n d C D)|]. split.
    + intros v w. rewrite mul_at, <- K. split.
      * intros H. inversion H as [? ? ? P'|? q e ? ? P' D' H']; subst; [congruence|]. assert (q = p) by congruence. assert (e = d) by congruence. subst. exact H'.
      * intros H. exact (carried_up h n p d v w P D H).
    + rewrite invertible_mul, V. split.
      * intros (I1 & I2) m e B1 B2 Hm De. apply above_cases in B2 as [->|(q & Q' & B2)]; [assert (X : e = d) by congruence; rewrite X; exact I2|].
        assert (q = p) by congruence. subst q. exact (I1 m e B1 B2 Hm De).
      * intros I. split.
        -- intros m e B1 B2 Hm De. apply (I m e B1); [exact (above_parent _ _ _ _ P B2)|exact Hm|exact De].
        -- apply (I n d (above_parent _ _ _ _ P A)); [constructor; exact (parent_live _ _ _ P)| |exact D].
           intros ->. exact (not_below_parent _ _ _ G P A).
Qed.

Lemma carried_det h n v w : carried h n v w -> forall w', carried h n v w' -> w = w'.
Proof.
  induction 1 as [n d v P D|n p d v w P D H IH]; intros w' H'; inversion H' as [? e ? P' D'|? q e ? ? P' D' H'']; subst; try congruence.
  assert (q = p) by congruence. assert (e = d) by congruence. subst. apply IH. exact H''.
Qed.

Lemma carried_total h n v : grown h -> live h n -> exists w, carried h n v w.
Proof.
  intros G L. destruct (grown_path h G n L) as (l & P). clear L. revert v. induction P as [n P|n p l P H IH]; intros v;
    destruct (proj1 (live_data h n) (parent_live _ _ _ P)) as (d & D).
  - eexists. exact (carried_root h n d v P D).
  - destruct (IH (aat (ftrans d) v)) as (w & W). exists w. exact (carried_up h n p d v w P D W).
Qed.

Lemma transform_cases h t s : grown h -> live h t -> live h s -> same_tree h t s ->
  (node_transform aone amul ainv h (Some t) (Some s) = Throw OtherErr /\
     exists m d, above h m t /\ ~ above h m s /\ data h m = Ok d /\ ~ invertible (ftrans d)) \/
  ((forall m d, above h m t -> ~ above h m s -> data h m = Ok d -> invertible (ftrans d)) /\
   exists g, node_transform aone amul ainv h (Some t) (Some s) = Ok g /\
     (forall v w, carried h s v w <-> carried h t (aat g v) w)).
Proof.
  intros G Lt Ls (r & Rt & Rs). cbn [node_transform]. destruct (Nat.eqb_spec t s) as [->|Ne].
  { right. split; [intros; contradiction|]. exists aone. split; [reflexivity|]. intros v w. rewrite one_at. tauto. }
  destruct (last_common_ancestor_correct h t s G Lt Ls) as (o & -> & Ho). cbn [bind]. destruct o as [a|]; [|exfalso; exact (Ho r (conj Rs Rt))].
  destruct Ho as (As & At & Low).
  destruct (grown_path h G t Lt) as (lt & Pt). destruct (grown_path h G s Ls) as (ls & Ps).
  rewrite (ancestry_path h t lt Pt), (ancestry_path h s ls Ps). cbn [bind].
  destruct (segment h a t G At lt Pt) as (ft & Ct & Kt & Vt). destruct (segment h a s G As ls Ps) as (fs & Cs & Ks & Vs).
  assert (Below : forall m, above h m t -> (above h a m /\ m <> a <-> ~ above h m s)).
  { intros m Bt. split.
    - intros (B & Hm) Bs. exact (Hm (above_anti h m a G (Low m Bs Bt) B)).
    - intros N. destruct (above_chain h a m t At Bt) as [B|B].
      + split; [exact B|]. intros ->. contradiction.
      + exfalso. apply N. exact (above_trans _ _ _ _ B As). }
  assert (V : invertible ft <-> forall m d, above h m t -> ~ above h m s -> data h m = Ok d -> invertible (ftrans d)).
  { rewrite Vt. split; intros H m d.
    - intros Bt N D. apply (Below m Bt) in N as (B & Hm). exact (H m d B Bt Hm D).
    - intros B Bt Hm D. exact (H m d Bt (proj1 (Below m Bt) (conj B Hm)) D). }
  (* the first product *)
  assert (X : (exists loc, match after a (rev lt) with [] => Ok aone | l => loc <- multiplied amul h l aone ;; ainv loc end = Ok loc /\
                 (forall v, aat ft (aat loc v) = v) /\ (forall v, aat loc (aat ft v) = v)) \/
              (match after a (rev lt) with [] => Ok aone | l => loc <- multiplied amul h l aone ;; ainv loc end = Throw OtherErr /\ ~ invertible ft)).
  { destruct (after a (rev lt)) as [|x l].
    - left. exists aone. specialize (Ct aone). cbn [multiplied] in Ct. rewrite mul_one_l in Ct. apply ok_inj in Ct. subst ft.
      split; [reflexivity|]. split; intros v; rewrite !one_at; reflexivity.
    - assert (Em : (loc <- multiplied amul h (x :: l) aone ;; ainv loc) = ainv ft) by (rewrite Ct, mul_one_l; reflexivity).
      rewrite Em. clear Em. destruct (ainv_cases ft) as [(b & E & A & B)|(E & N)].
      + left. exists b. split; [exact E|]. split; [exact A|exact B].
      + right. split; [exact E|]. intros I. apply N, invertible_injective, I. }
  destruct X as [(loc & -> & A & B)|(-> & N)]; cbn [bind].
  - right. split; [apply V; exact (inverse_invertible _ _ A B)|]. rewrite Cs. eexists. split; [reflexivity|].
    intros v w. rewrite Ks, Kt, mul_at, A. tauto.
  - left. split; [reflexivity|].
    (* one of the factors is not invertible *)
    clear - N Pt At Below G V Ls.
    assert (Y : forall l, (forall m, In m l -> live h m) ->
              (exists m d, In m l /\ ~ above h m s /\ data h m = Ok d /\ ~ invertible (ftrans d)) \/
              (forall m d, In m l -> ~ above h m s -> data h m = Ok d -> invertible (ftrans d))).
    { induction l as [|x l IH]; intros Lv; [right; intros ? ? []|].
      destruct IH as [(m & d & I & R)|IH]; [intros m I; apply Lv; right; exact I|left; exists m, d; split; [right; exact I|exact R]|].
      destruct (proj1 (live_data h x) (Lv x (or_introl eq_refl))) as (d & D).
      destruct (invertible_dec (ftrans d)) as [I|I].
      - right. intros m e [<-|Im] Nm De; [|exact (IH m e Im Nm De)]. assert (e = d) by congruence. subst. exact I.
      - destruct (above_dec h x s G Ls) as [B|B].
        + right. intros m e [<-|Im] Nm De; [contradiction|exact (IH m e Im Nm De)].
        + left. exists x, d. split; [left; reflexivity|]. auto. }
    destruct (Y lt) as [(m & d & I & Nm & D & H)|H].
    + intros m I. exact (above_live_top _ _ _ (proj1 (path_above h t lt Pt m) I)).
    + exists m, d. split; [exact (proj1 (path_above h t lt Pt m) I)|]. auto.
    + exfalso. apply N, V. intros m d B Nm D. exact (H m d (proj2 (path_above h t lt Pt m) B) Nm D).
Qed.
