(* The run length pass: one blob per component. *)
From Coq Require Import ZArith List Lia Bool Relations.
From Verif Require Import Lib.Base Lib.Lists Lib.Img Blob.Model Blob.Spec Blob.Proofs Blob.Props BIndex.Model BIndex.Spec BIndex.Label.
Import ListNotations.
Local Open Scope Z_scope.

(* a path crosses every row between its ends *)
Lemma joined_rows m x y u v t : joined m x y u v -> y <= t <= v -> exists w, joined m x y w t.
Proof.
  intros J. revert t. induction J as [x y H | x y u v u' v' J IH H A]; intros t T.
  - exists x. replace t with y by lia. constructor; exact H.
  - destruct (Z.eq_dec t v') as [-> | N].
    + exists u'. apply joined_step with u v; assumption.
    + apply IH. unfold adjacent8 in A. lia.
Qed.

Section Rle.
  Variable m : img bool.
  Variable d : img Z.
  Variable comp : Z -> Z.
  Variable k : Z.
  Local Notation V := (valid m).
  Local Notation K := (fun x y => comp (pix d x y)).
  Hypothesis Dc : icols d = icols m.
  Hypothesis Dr : irows d = irows m.
  Hypothesis Dz : forall x y, inside m x y -> (pix d x y <> 0 <-> V x y).
  Hypothesis Kr : forall x y, V x y -> 1 <= K x y < k.
  Hypothesis Kj : forall x y u v, V x y -> V u v -> (K x y = K u v <-> joined m x y u v).

  Definition BInv (D : Z -> Z -> Prop) (bl : list blob) : Prop :=
    length bl = Z.to_nat (k - 1) /\ forall i, 1 <= i < k -> exists b, nth_error bl (Z.to_nat (i - 1)) = Some b /\
      (b = empty_blob /\ (forall x y, D x y -> V x y -> K x y <> i) \/
       exists P, Built b P /\ forall x y, P x y <-> D x y /\ V x y /\ K x y = i).

  Lemma BInv_ext D D' bl : (forall x y, inside m x y -> (D x y <-> D' x y)) -> BInv D bl -> BInv D' bl.
  Proof.
    intros E (Hlen & H). split; [ exact Hlen | ]. intros i I. destruct (H i I) as (b & N & [(X & Y) | (P & B & Q)]); exists b; (split; [ exact N | ]).
    - left. split; [ exact X | ]. intros x y Dx Vx. apply Y; [ apply E; [ apply Vx | exact Dx ] | exact Vx ].
    - right. exists P. split; [ exact B | ]. intros x y. rewrite Q. split; intros (A1 & A2 & A3); (split; [ | split; assumption ]); apply E; try apply A2; exact A1.
  Qed.

  Lemma add_to_ok bl r s c i : BInv (done r s) bl -> 0 <= s < c -> c <= icols m -> 0 <= r < irows m ->
    (forall x, s <= x < c -> V x r /\ K x r = i) ->
    exists bl', add_to bl i s r (c - s) = Ok bl' /\ BInv (done r c) bl'.
  Proof.
    intros (Hlen & H) S C R F. destruct (F s ltac:(lia)) as (Vs & Ks). pose proof (Kr _ _ Vs) as Ki. cbv beta in Ki. rewrite Ks in Ki.
    destruct (H i Ki) as (b & N & Hb). unfold add_to. rewrite N. assert (Q : (i <? 1) = false) by (apply Z.ltb_ge; lia). rewrite Q.
    assert (G : exists b' P', add_row b s r (c - s) = Ok b' /\ Built b' P' /\ forall x y, P' x y <-> done r c x y /\ V x y /\ K x y = i).
    { destruct Hb as [(-> & No) | (P & B & HP)].
      - destruct (add_row empty_blob s r (c - s)) as [b' | e | u] eqn:E; [ | discriminate E | discriminate E ]. exists b'. eexists. split; [ reflexivity | ].
        split; [ apply (Built_first s r (c - s)); [ lia | lia | exact E ] | ]. cbv beta. intros x y. split.
        + intros (-> & X). destruct (F x ltac:(lia)). split; [ unfold done; lia | ]. auto.
        + intros (D & Vx & Kx). assert (X : ~ done r s x y) by (intros X; exact (No _ _ X Vx Kx)). unfold done in *. lia.
      - assert (T : exists u, P u r \/ P u (r - 1)).
        { assert (exists x y, P x y) as (x & y & Px).
          { destruct (built_ok b P B) as (O & Hs & _). destruct (blob_contents b P B) as (_ & Hin & _). pose proof O as O2.
            destruct O2 as (_ & row & sg & Hr & Hs2 & _). apply In_nth_error in Hr. destruct Hr as (q & Hq).
            destruct O as (O & _). pose proof (nth_error_In _ _ Hq) as Hi. destruct (O _ Hi) as (_ & Ok' & _).
            exists (bx b + fst sg), (by_ b + Z.of_nat q). apply Hs. exists q, row. split; [ exact Hq | ]. split; [ reflexivity | ].
            replace (bx b + fst sg - bx b) with (fst sg) by lia. apply in_seg_covers; assumption. }
          apply HP in Px as Px2. destruct Px2 as (Dx & Vx & Kx). destruct (Z.eq_dec y r) as [-> | Ny]; [ exists x; left; exact Px | ].
          assert (J : joined m x y s r) by (apply Kj; auto; cbv beta; congruence).
          destruct (joined_rows _ _ _ _ _ (r - 1) J) as (w & Jw); [ unfold done in Dx; lia | ].
          exists w. right. apply HP. split; [ unfold done; lia | ]. pose proof (joined_valid_r _ _ _ _ _ Jw) as Vw. split; [ exact Vw | ].
          rewrite <- Kx. symmetry. apply Kj; assumption. }
        assert (A : forall u v, P u v -> v < r \/ v = r /\ u < s) by (intros u v Pu; apply HP in Pu; apply Pu).
        destruct (blob_takes_rows b P s r (c - s) B ltac:(lia) T A) as (b' & E). exists b'. eexists. split; [ exact E | ].
        split; [ apply (Built_row b P s r (c - s)); [ exact B | lia | lia | exact T | exact A | exact E ] | ]. cbv beta. intros x y. rewrite HP. split.
        + intros [(D & X) | (-> & X)]; [ split; [ unfold done in *; lia | exact X ] | ]. destruct (F x ltac:(lia)). split; [ unfold done; lia | ]. auto.
        + intros (D & Vx & Kx). destruct (Z_lt_ge_dec x s) as [X | X]; [ left; split; [ unfold done in *; lia | auto ] | ].
          destruct (Z.eq_dec y r) as [Y | Y]; [ right; unfold done in D; lia | left; split; [ unfold done in *; lia | auto ] ]. }
    destruct G as (b' & P' & E & B' & HP'). rewrite E. cbn [bind]. eexists. split; [ reflexivity | ].
    split; [ rewrite upd_length; exact Hlen | ]. intros j J. destruct (Z.eq_dec j i) as [-> | Nj].
    - exists b'. split; [ apply upd_eq, (nth_error_lt _ _ _ N) | ]. right. exists P'. split; assumption.
    - destruct (H j J) as (b2 & N2 & H2). exists b2. split; [ rewrite upd_neq by lia; exact N2 | ].
      assert (X : forall x y, V x y -> K x y = j -> (done r s x y <-> done r c x y)).
      { intros x y Vx Kx. split; [ unfold done; lia | ]. intros D. destruct (Z_lt_ge_dec x s) as [Y | Y]; [ unfold done in *; lia | ].
        destruct (Z.eq_dec y r) as [Z | Z]; [ subst y | unfold done in *; lia ]. destruct (F x ltac:(unfold done in D; lia)) as (_ & Kx2). cbv beta in Kx, Kx2. congruence. }
      destruct H2 as [(Y & Z) | (P & B2 & HP)].
      + left. split; [ exact Y | ]. intros x y Dx Vx Kx. apply (Z x y); auto. apply X; assumption.
      + right. exists P. split; [ exact B2 | ]. intros x y. rewrite HP. split; intros (A1 & A2 & A3); (split; [ apply (X x y A2 A3); exact A1 | auto ]).
  Qed.

  Definition SInv (r c : Z) (s : rstate) : Prop :=
    if building s then 0 <= start_col s < c /\ BInv (done r (start_col s)) (blobs s) /\
      (forall x, start_col s <= x < c -> V x r /\ K x r = index s)
    else BInv (done r c) (blobs s).

  Lemma rle_row_ok r bl : 0 <= r < irows m -> 0 <= icols m -> BInv (done r 0) bl ->
    exists bl', rle_row d comp r bl = Ok bl' /\ BInv (done (r + 1) 0) bl'.
  Proof.
    intros R C0 H. unfold rle_row. rewrite Dc.
    destruct (for_up_inv (SInv r) (rle_pixel d comp r) 0 (icols m) (RS false 0 0 bl) C0 H) as (s & E & S).
    { intros c s C S. assert (I : inside m c r) by (unfold inside; lia).
      unfold rle_pixel. rewrite get_in by (unfold inside; rewrite Dc, Dr; exact I). cbn [bind].
      destruct (pix d c r =? 0) eqn:Q; cbn [negb].
      - apply Z.eqb_eq in Q. assert (Nv : ~ V c r) by (intros X; apply Dz in X; [ congruence | exact I ]).
        unfold SInv in S. destruct (building s) eqn:Bs.
        + destruct S as (S1 & S2 & S3). destruct (add_to_ok (blobs s) r (start_col s) c (index s) S2 S1 ltac:(lia) R S3) as (bl' & E' & B').
          rewrite E'. cbn [bind]. eexists. split; [ reflexivity | ]. unfold SInv. cbn [building blobs].
          destruct B' as (Hlen & B'). split; [ exact Hlen | ]. intros i Hi. destruct (B' i Hi) as (b & N & Hb). exists b. split; [ exact N | ].
          assert (X : forall x y, V x y -> (done r c x y <-> done r (c + 1) x y)).
          { intros x y Vx. unfold done. split; [ lia | ]. intros D. destruct (Z.eq_dec x c) as [-> | X]; [ | lia ]. destruct (Z.eq_dec y r) as [-> | Y]; [ contradiction | lia ]. }
          destruct Hb as [(Y & Z) | (P & B2 & HP)]; [ left; split; [ exact Y | intros x y Dx Vx; apply Z; [ apply X; assumption | exact Vx ] ] | ].
          right. exists P. split; [ exact B2 | ]. intros x y. rewrite HP. split; intros (A1 & A2 & A3); (split; [ apply (X x y A2); exact A1 | auto ]).
        + eexists. split; [ reflexivity | ]. unfold SInv. rewrite Bs.
          destruct S as (Hlen & S). split; [ exact Hlen | ]. intros i Hi. destruct (S i Hi) as (b & N & Hb). exists b. split; [ exact N | ].
          assert (X : forall x y, V x y -> (done r c x y <-> done r (c + 1) x y)).
          { intros x y Vx. unfold done. split; [ lia | ]. intros D. destruct (Z.eq_dec x c) as [-> | X]; [ | lia ]. destruct (Z.eq_dec y r) as [-> | Y]; [ contradiction | lia ]. }
          destruct Hb as [(Y & Z) | (P & B2 & HP)]; [ left; split; [ exact Y | intros x y Dx Vx; apply Z; [ apply X; assumption | exact Vx ] ] | ].
          right. exists P. split; [ exact B2 | ]. intros x y. rewrite HP. split; intros (A1 & A2 & A3); (split; [ apply (X x y A2); exact A1 | auto ]).
      - apply Z.eqb_neq in Q. assert (Vc : V c r) by (apply Dz; assumption).
        unfold SInv in S. destruct (building s) eqn:Bs; cbn [andb negb].
        + destruct S as (S1 & S2 & S3). destruct (S3 (c - 1) ltac:(lia)) as (Vp & Kp).
          assert (Kc : index s = comp (pix d c r)).
          { rewrite <- Kp. apply (Kj (c - 1) r c r Vp Vc). apply joined_adj; [ exact Vp | exact Vc | unfold adjacent8; lia ]. }
          rewrite <- Kc, Z.eqb_refl. cbn [negb]. eexists. split; [ reflexivity | ]. unfold SInv. rewrite Bs. split; [ lia | ]. split; [ exact S2 | ].
          intros x X. destruct (Z.eq_dec x c) as [-> | N]; [ split; [ exact Vc | symmetry; exact Kc ] | apply S3; lia ].
        + eexists. split; [ reflexivity | ]. unfold SInv. cbn [building start_col index blobs]. split; [ lia | ]. split; [ exact S | ].
          intros x X. assert (x = c) by lia. subst x. split; [ exact Vc | reflexivity ]. }
    rewrite E. cbn [bind]. unfold SInv in S.
    assert (Ext : forall bl', BInv (done r (icols m)) bl' -> BInv (done (r + 1) 0) bl').
    { intros bl'. apply BInv_ext. unfold done, inside. intros; lia. }
    destruct (building s).
    - destruct S as (S1 & S2 & S3). destruct (add_to_ok (blobs s) r (start_col s) (icols m) (index s) S2 S1 ltac:(lia) R S3) as (bl' & E' & B').
      exists bl'. split; [ exact E' | apply Ext, B' ].
    - eexists. split; [ reflexivity | apply Ext, S ].
  Qed.

  Lemma rle_ok : 0 <= icols m -> 0 <= irows m ->
    exists bl, for_up 0 (irows m) (rle_row d comp) (repeat empty_blob (Z.to_nat (k - 1))) = Ok bl /\ BInv (fun _ _ => True) bl.
  Proof.
    intros C R. destruct (for_up_inv (fun r bl => BInv (done r 0) bl) (rle_row d comp) 0 (irows m) (repeat empty_blob (Z.to_nat (k - 1))) R) as (bl & E & B).
    - split; [ apply repeat_length | ]. intros i I. exists empty_blob. split.
      + rewrite nth_error_repeat; [ reflexivity | lia ].
      + left. split; [ reflexivity | ]. intros x y D (X & _). unfold done in D. unfold inside in X. lia.
    - intros r bl Rr B. apply rle_row_ok; assumption.
    - exists bl. split; [ exact E | ]. revert B. apply BInv_ext. unfold done, inside. intros; lia.
  Qed.
End Rle.
