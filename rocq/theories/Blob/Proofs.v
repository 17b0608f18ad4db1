From Coq Require Import ZArith List Lia Bool Sorted.
From Verif Require Import Lib.Base Lib.Lists Lib.SMap Blob.Model Blob.Spec.
Import ListNotations.
Local Open Scope Z_scope.

(* ---- rows ---- *)
Lemma covers_nil x : ~ covers [] x.
Proof. intros (s & e & H & _). destruct H. Qed.
Lemma covers_cons s r x : covers (s :: r) x <-> fst s <= x < snd s \/ covers r x.
Proof.
  split.
  - intros (a & e & [E | H] & L); [ subst s; left; exact L | right; exists a, e; auto ].
  - intros [L | (a & e & H & L)].
    + exists (fst s), (snd s). split; [ left; destruct s; reflexivity | exact L ].
    + exists a, e. split; [ right; exact H | exact L ].
Qed.
Lemma covers_app r r' x : covers (r ++ r') x <-> covers r x \/ covers r' x.
Proof.
  split.
  - intros (s & e & H & L). apply in_app_or in H. destruct H; [ left | right ]; exists s, e; auto.
  - intros [(s & e & H & L) | (s & e & H & L)]; exists s, e; (split; [ apply in_or_app; auto | exact L ]).
Qed.
Lemma covers_shift v r x : covers (shift_row v r) x <-> covers r (x - v).
Proof.
  induction r as [|s t IH]; cbn [shift_row map].
  - split; intros H; destruct (covers_nil _ H).
  - rewrite !covers_cons. fold (shift_row v t). rewrite IH. cbn [fst snd]. split; (intros [H|H]; [ left; lia | right; exact H ]).
Qed.
Lemma row_ok_nil : row_ok [].
Proof. split; constructor. Qed.
Lemma row_ok_cons s r : row_ok (s :: r) <-> fst s < snd s /\ (forall t, In t r -> snd s <= fst t) /\ row_ok r.
Proof.
  unfold row_ok. split.
  - intros (S & F). inversion S; inversion F; subst. rewrite Forall_forall in *. repeat split; auto; apply Forall_forall; auto.
  - intros (A & B & C & D). split; constructor; auto. apply Forall_forall; exact B.
Qed.
Lemma row_ok_shift v r : row_ok r -> row_ok (shift_row v r).
Proof.
  induction r as [|s t IH]; intros H; [ exact row_ok_nil | ].
  apply row_ok_cons in H. destruct H as (A & B & C). cbn [shift_row map]. apply row_ok_cons. cbn [fst snd].
  repeat split; [ lia | | apply IH, C | apply IH, C ].
  intros t' T. apply in_map_iff in T. destruct T as (t0 & E & T). subst t'. cbn [fst]. specialize (B _ T). lia.
Qed.
Lemma row_ok_snoc r s : row_ok r -> fst s < snd s -> (forall t, In t r -> snd t <= fst s) -> row_ok (r ++ [s]).
Proof.
  induction r as [|a t IH]; intros H L B; cbn [app].
  - apply row_ok_cons. repeat split; [ exact L | intros ? [] | constructor | constructor ].
  - apply row_ok_cons in H. destruct H as (A & C & D). apply row_ok_cons. split; [ exact A | ]. split.
    + intros t' T. apply in_app_or in T. destruct T as [T | [T | []]]; [ apply C, T | subst t'; apply B; left; reflexivity ].
    + apply IH; auto. intros t' T. apply B. right; exact T.
Qed.
Lemma in_seg_covers r s : row_ok r -> In s r -> covers r (fst s) /\ covers r (snd s - 1).
Proof.
  intros (_ & F) I. rewrite Forall_forall in F. specialize (F _ I).
  split; (exists (fst s), (snd s); split; [ destruct s; exact I | lia ]).
Qed.
Lemma row_ok_first s r x : row_ok (s :: r) -> covers (s :: r) x -> fst s <= x.
Proof.
  intros H C. apply row_ok_cons in H. destruct H as (A & B & _). destruct C as (a & e & [E | I] & L); [ subst s; cbn in *; lia | ].
  specialize (B _ I). cbn in B. lia.
Qed.
Lemma last_in {A} (s : A) r d : In (last (s :: r) d) (s :: r).
Proof. revert s; induction r as [|a t IH]; intros s; [ left; reflexivity | right; apply IH ]. Qed.
Lemma last_cons {A} (s a : A) r d : last (s :: a :: r) d = last (a :: r) d. Proof. reflexivity. Qed.
Lemma row_ok_last r s d t : row_ok (s :: r) -> In t (s :: r) -> snd t <= snd (last (s :: r) d) /\ fst t <= fst (last (s :: r) d).
Proof.
  revert s. induction r as [|a r IH]; intros s H I.
  - destruct I as [E | []]. subst t. cbn. lia.
  - rewrite last_cons. apply row_ok_cons in H. destruct H as (A & B & C).
    pose proof (last_in a r d) as L. destruct I as [E | I].
    + subst t. specialize (B _ L).
      assert (F : fst (last (a :: r) d) < snd (last (a :: r) d)).
      { destruct C as (_ & F). rewrite Forall_forall in F. apply F, L. } lia.
    + apply IH; auto.
Qed.
Lemma last_default {A} (s : A) r d d' : last (s :: r) d = last (s :: r) d'.
Proof. revert s; induction r as [|a t IH]; intros s; [ reflexivity | rewrite !last_cons; apply IH ]. Qed.

(* ---- shifting ---- *)
Lemma has_shift_x v b x y : has (shift_x v b) x y <-> has b x y.
Proof.
  unfold has, shift_x. cbn [rows bx by_]. split.
  - intros (k & r & E & Y & C). rewrite nth_error_map in E. destruct (nth_error (rows b) k) as [r0|] eqn:R; [ | discriminate ].
    injection E as E. subst r. exists k, r0. split; [ exact R | ]. split; [ exact Y | ]. rewrite covers_shift in C.
    replace (x - bx b) with (x - (bx b + v) - - v) by lia. exact C.
  - intros (k & r & E & Y & C). exists k, (shift_row (- v) r). split; [ rewrite nth_error_map, E; reflexivity | ]. split; [ exact Y | ].
    rewrite covers_shift. replace (x - (bx b + v) - - v) with (x - bx b) by lia. exact C.
Qed.

(* rows that are all in use, no left edge required *)
Definition rows_ok (l : list row) : Prop := forall r, In r l -> r <> [] /\ row_ok r.
Lemma blob_ok_rows b : blob_ok b -> rows_ok (rows b) /\ rows b <> [].
Proof.
  intros (A & r & s & R & _). split.
  - intros r' H. destruct (A _ H) as (N & O & _). auto.
  - intros E. rewrite E in R. destruct R.
Qed.

(* moving the left edge to the least first start *)
Lemma shift_least_ok b low : rows_ok (rows b) ->
  (forall r s, In r (rows b) -> In s r -> low <= fst s) -> (exists r s, In r (rows b) /\ In s r /\ fst s = low) ->
  blob_ok (shift_x low b).
Proof.
  intros O L (r & s & R & S & E). split.
  - cbn [shift_x rows]. intros r' H. apply in_map_iff in H. destruct H as (r0 & E0 & H). subst r'. destruct (O _ H) as (N & K).
    split; [ | split ].
    + destruct r0; [ congruence | discriminate ].
    + apply row_ok_shift, K.
    + intros s' T. apply in_map_iff in T. destruct T as (s0 & E1 & T). subst s'. cbn [fst]. specialize (L _ _ H T). lia.
  - exists (shift_row (- low) r), (fst s + - low, snd s + - low). cbn [shift_x rows]. split; [ apply in_map, R | ]. split.
    + unfold shift_row. apply in_map_iff. exists s. auto.
    + cbn [fst]. lia.
Qed.

Lemma lowest_spec l : rows_ok l -> forall acc, exists low, lowest l acc = Ok low /\
  low <= acc /\ (forall r s, In r l -> In s r -> low <= fst s) /\ (low = acc \/ exists r s, In r l /\ In s r /\ fst s = low).
Proof.
  induction l as [|r t IH]; intros O acc; cbn [lowest].
  - exists acc. repeat split; [ lia | intros ? ? [] | left; reflexivity ].
  - destruct (O r (or_introl eq_refl)) as (N & K). destruct r as [|s r]; [ congruence | ].
    destruct (IH (fun r' H => O r' (or_intror H)) (if fst s <? acc then fst s else acc)) as (low & E & L & F & M).
    exists low. split; [ exact E | ]. apply row_ok_cons in K. destruct K as (K1 & K2 & K3).
    assert (L' : low <= acc /\ low <= fst s) by (destruct (fst s <? acc) eqn:C; [ apply Z.ltb_lt in C | apply Z.ltb_ge in C ]; lia).
    split; [ lia | ]. split.
    + intros r' s' [R | R] S; [ subst r' | exact (F _ _ R S) ].
      destruct S as [S | S]; [ subst s'; lia | ]. specialize (K2 _ S). lia.
    + destruct M as [M | (r' & s' & R & S & M)].
      * destruct (fst s <? acc); [ right; exists (s :: r), s; split; [ left; reflexivity | split; [ left; reflexivity | lia ] ] | left; exact M ].
      * right. exists r', s'. split; [ right; exact R | auto ].
Qed.
Lemma first_lowest_spec l : rows_ok l -> l <> [] -> exists low, first_lowest l = Ok low /\
  (forall r s, In r l -> In s r -> low <= fst s) /\ exists r s, In r l /\ In s r /\ fst s = low.
Proof.
  destruct l as [|r t]; intros O N; [ congruence | ].
  destruct (O r (or_introl eq_refl)) as (M & K). destruct r as [|s r]; [ congruence | ]. cbn [first_lowest].
  destruct (lowest_spec t (fun r' H => O r' (or_intror H)) (fst s)) as (low & E & L & F & X). exists low. split; [ exact E | ].
  apply row_ok_cons in K. destruct K as (K1 & K2 & K3). split.
  - intros r' s' [R | R] S; [ subst r' | exact (F _ _ R S) ]. destruct S as [S | S]; [ subst s'; lia | ]. specialize (K2 _ S). lia.
  - destruct X as [X | (r' & s' & R & S & X)].
    + exists (s :: r), s. split; [ left; reflexivity | split; [ left; reflexivity | lia ] ].
    + exists r', s'. split; [ right; exact R | auto ].
Qed.

(* ---- refactor ---- *)
Definition apart (r : row) : Prop := StronglySorted (fun a b : seg => snd a < fst b) r.
Lemma join_spec r : forall s, row_ok (s :: r) ->
  row_ok (join s r) /\ apart (join s r) /\ (forall x, covers (join s r) x <-> covers (s :: r) x) /\
  (exists e t, join s r = (fst s, e) :: t).
Proof.
  induction r as [|a r IH]; intros s H; cbn [join].
  - split; [ exact H | ]. split; [ repeat constructor | ]. split; [ reflexivity | ]. exists (snd s), []. destruct s; reflexivity.
  - pose proof H as H0. apply row_ok_cons in H. destruct H as (A & B & C). pose proof C as C0.
    apply row_ok_cons in C. destruct C as (C1 & C2 & C3). pose proof (B a (or_introl eq_refl)) as B1.
    destruct (fst a =? snd s) eqn:Q.
    + apply Z.eqb_eq in Q. destruct (IH (fst s, snd a)) as (J1 & J2 & J3 & J4).
      { apply row_ok_cons. cbn [fst snd]. split; [ lia | ]. auto. }
      split; [ exact J1 | ]. split; [ exact J2 | ]. split; [ | exact J4 ].
      intros x. rewrite J3, !covers_cons. cbn [fst snd]. split.
      * intros [L | L]; [ | auto ]. destruct (Z_lt_ge_dec x (snd s)); [ left; lia | right; left; lia ].
      * intros [L | [L | L]]; [ left; lia | left; lia | auto ].
    + apply Z.eqb_neq in Q. destruct (IH a C0) as (J1 & J2 & J3 & (e & t & J4)). split; [ | split; [ | split ] ].
      * apply row_ok_cons. split; [ exact A | ]. split; [ | exact J1 ].
        intros t' T. assert (Hc : covers (join a r) (fst t')) by (apply (in_seg_covers _ _ J1 T)).
        rewrite J3 in Hc. apply (row_ok_first _ _ _ C0) in Hc. lia.
      * constructor; [ exact J2 | ]. apply Forall_forall. intros t' T.
        assert (Hc : covers (join a r) (fst t')) by (apply (in_seg_covers _ _ J1 T)).
        rewrite J3 in Hc. apply (row_ok_first _ _ _ C0) in Hc. lia.
      * intros x. rewrite (covers_cons s), (covers_cons s), J3. reflexivity.
      * exists (snd s), (join a r). destruct s; reflexivity.
Qed.

Lemma refactor_rows_spec l : rows_ok l -> exists l', refactor_rows l = Ok l' /\ Forall2 (fun r r' =>
  r' <> [] /\ row_ok r' /\ apart r' /\ (forall x, covers r' x <-> covers r x)) l l'.
Proof.
  induction l as [|r t IH]; intros O; cbn [refactor_rows].
  - exists []. split; [ reflexivity | constructor ].
  - destruct (O r (or_introl eq_refl)) as (N & K). destruct r as [|s r]; [ congruence | ].
    destruct (IH (fun r' H => O r' (or_intror H))) as (l' & E & F).
    destruct (join_spec r s K) as (J1 & J2 & J3 & (e & t' & J4)).
    exists (join s r :: l'). cbn [refactor_row bind]. rewrite E. split; [ reflexivity | ].
    constructor; [ | exact F ]. split; [ rewrite J4; discriminate | auto ].
Qed.

Lemma Forall2_nth_l {A B} (R : A -> B -> Prop) l l' : Forall2 R l l' -> forall k a, nth_error l k = Some a ->
  exists b, nth_error l' k = Some b /\ R a b.
Proof.
  induction 1 as [|a b l l' H F IH]; intros k c E; [ destruct k; discriminate | ].
  destruct k as [|k]; cbn in *; [ injection E as E; subst c; eauto | eauto ].
Qed.
Lemma Forall2_nth_r {A B} (R : A -> B -> Prop) l l' : Forall2 R l l' -> forall k b, nth_error l' k = Some b ->
  exists a, nth_error l k = Some a /\ R a b.
Proof.
  induction 1 as [|a b l l' H F IH]; intros k c E; [ destruct k; discriminate | ].
  destruct k as [|k]; cbn in *; [ injection E as E; subst c; eauto | eauto ].
Qed.

Lemma has_rows_eq b l : Forall2 (fun r r' => forall x, covers r' x <-> covers r x) (rows b) l ->
  forall x y, has (Blob (bx b) (by_ b) l) x y <-> has b x y.
Proof.
  intros F x y. unfold has. cbn [rows bx by_]. split.
  - intros (k & r & E & Y & C). destruct (Forall2_nth_r _ _ _ F _ _ E) as (r0 & E0 & H). exists k, r0. rewrite <- H. auto.
  - intros (k & r & E & Y & C). destruct (Forall2_nth_l _ _ _ F _ _ E) as (r0 & E0 & H). exists k, r0. rewrite H. auto.
Qed.

(* least column of a row, through coverage *)
Lemma covers_least r x : row_ok r -> covers r x -> exists s, In s r /\ fst s <= x.
Proof. intros _ (s & e & I & L). exists (s, e). split; [ exact I | cbn; lia ]. Qed.

Lemma refactor_spec b : blob_ok b -> exists b', refactor b = Ok b' /\ blob_ok b' /\
  Forall apart (rows b') /\ bx b' = bx b /\ by_ b' = by_ b /\ length (rows b') = length (rows b) /\
  forall x y, has b' x y <-> has b x y.
Proof.
  intros O. destruct (blob_ok_rows b O) as (Or & Ne). destruct (refactor_rows_spec _ Or) as (l & E & F).
  exists (Blob (bx b) (by_ b) l). unfold refactor. rewrite E. cbn [bind]. split; [ reflexivity | ].
  destruct O as (O1 & r0 & s0 & R0 & S0 & Z0).
  split; [ | split; [ | split; [ reflexivity | split; [ reflexivity | split ] ] ] ].
  - split; cbn [rows].
    + intros r' H. apply In_nth_error in H. destruct H as (k & H). destruct (Forall2_nth_r _ _ _ F _ _ H) as (r & Hr & N & K & _ & C).
      split; [ exact N | split; [ exact K | ] ]. intros s S.
      assert (Hc : covers r (fst s)) by (apply C, (in_seg_covers _ _ K S)).
      apply nth_error_In in Hr. destruct (O1 _ Hr) as (_ & Kr & L). destruct (covers_least _ _ Kr Hc) as (s1 & S1 & L1).
      specialize (L _ S1). lia.
    + apply In_nth_error in R0. destruct R0 as (k & R0). destruct (Forall2_nth_l _ _ _ F _ _ R0) as (r' & Hr & N & K & _ & C).
      assert (Hc : covers r' 0).
      { apply C. rewrite <- Z0. apply in_seg_covers; [ | exact S0 ]. apply Or. apply nth_error_In in R0. exact R0. }
      destruct (covers_least _ _ K Hc) as (s1 & S1 & L1).
      exists r', s1. split; [ apply nth_error_In in Hr; exact Hr | ]. split; [ exact S1 | ].
      assert (Hc1 : covers r0 (fst s1)) by (apply C, (in_seg_covers _ _ K S1)).
      apply nth_error_In in R0. destruct (O1 _ R0) as (_ & Kr & L). destruct (covers_least _ _ Kr Hc1) as (s2 & S2 & L2). specialize (L _ S2). lia.
  - cbn [rows]. apply Forall_forall. intros r' H. apply In_nth_error in H. destruct H as (k & H).
    destruct (Forall2_nth_r _ _ _ F _ _ H) as (r & Hr & N & K & A & C). exact A.
  - cbn [rows]. symmetry. clear -F. induction F; cbn; lia.
  - apply has_rows_eq. clear -F. induction F as [|a b' l l' H F IH]; constructor; [ apply H | exact IH ].
Qed.

(* ---- rows by signed index, empty outside ---- *)
Definition zlen {A} (l : list A) : Z := Z.of_nat (length l).
Definition zrow (l : list row) (j : Z) : row := if (0 <=? j) && (j <? zlen l) then nth (Z.to_nat j) l [] else [].
Lemma zrow_in l j : 0 <= j < zlen l -> zrow l j = nth (Z.to_nat j) l [].
Proof. intros H. unfold zrow. destruct (0 <=? j) eqn:A; [ | apply Z.leb_gt in A; lia ]. destruct (j <? zlen l) eqn:B; [ reflexivity | apply Z.ltb_ge in B; lia ]. Qed.
Lemma zrow_out l j : ~ (0 <= j < zlen l) -> zrow l j = [].
Proof. intros H. unfold zrow. destruct (0 <=? j) eqn:A; [ | reflexivity ]. destruct (j <? zlen l) eqn:B; [ | reflexivity ]. apply Z.leb_le in A. apply Z.ltb_lt in B. lia. Qed.
Lemma zrow_In l j : 0 <= j < zlen l -> In (zrow l j) l.
Proof. intros H. rewrite zrow_in by exact H. apply nth_In. unfold zlen in H. lia. Qed.
Lemma In_zrow l r : In r l -> exists j, 0 <= j < zlen l /\ zrow l j = r.
Proof.
  intros H. destruct (In_nth _ _ [] H) as (k & K & E). exists (Z.of_nat k). assert (0 <= Z.of_nat k < zlen l) by (unfold zlen; split; [ apply Nat2Z.is_nonneg | apply inj_lt; exact K ]).
  split; [ assumption | ]. rewrite zrow_in by assumption. rewrite Nat2Z.id. exact E.
Qed.
Lemma zlen_app {A} (l l' : list A) : zlen (l ++ l') = zlen l + zlen l'.
Proof. unfold zlen. rewrite app_length. lia. Qed.
Lemma zlen_pos {A} (l : list A) : 0 <= zlen l. Proof. unfold zlen; lia. Qed.
Lemma zrow_app l l' j : zrow (l ++ l') j = if j <? zlen l then zrow l j else zrow l' (j - zlen l).
Proof.
  pose proof (zlen_app l l') as Ea. pose proof (zlen_pos l). pose proof (zlen_pos l').
  destruct (j <? zlen l) eqn:C; [ apply Z.ltb_lt in C | apply Z.ltb_ge in C ].
  - destruct (Z_lt_ge_dec j 0).
    + rewrite !zrow_out by lia. reflexivity.
    + rewrite !zrow_in by lia. apply app_nth1. unfold zlen in C. lia.
  - destruct (Z_lt_ge_dec j (zlen l + zlen l')).
    + rewrite !zrow_in by lia. rewrite app_nth2 by (unfold zlen in C; lia). f_equal. unfold zlen. lia.
    + rewrite !zrow_out by lia. reflexivity.
Qed.
Lemma has_zrow b x y : has b x y <-> covers (zrow (rows b) (y - by_ b)) (x - bx b).
Proof.
  split.
  - intros (k & r & E & Y & C). pose proof (nth_error_lt _ _ _ E). rewrite zrow_in by (unfold zlen; lia).
    replace (Z.to_nat (y - by_ b)) with k by lia. rewrite (nth_error_nth _ _ [] E). exact C.
  - intros C. destruct (Z_lt_ge_dec (y - by_ b) 0) as [L | L]; [ rewrite zrow_out in C by lia; destruct (covers_nil _ C) | ].
    destruct (Z_lt_ge_dec (y - by_ b) (zlen (rows b))) as [M | M]; [ | rewrite zrow_out in C by lia; destruct (covers_nil _ C) ].
    rewrite zrow_in in C by lia. exists (Z.to_nat (y - by_ b)), (nth (Z.to_nat (y - by_ b)) (rows b) []).
    split; [ apply nth_error_nth'; unfold zlen in M; lia | ]. split; [ lia | exact C ].
Qed.
Lemma rows_ok_zrow l : rows_ok l <-> forall j, 0 <= j < zlen l -> zrow l j <> [] /\ row_ok (zrow l j).
Proof.
  split.
  - intros H j J. apply H, zrow_In, J.
  - intros H r R. destruct (In_zrow _ _ R) as (j & J & E). subst r. apply H, J.
Qed.

(* ---- inserting one segment ---- *)
Definition clear_of (v t : seg) : Prop := snd v <= fst t \/ snd t <= fst v.
Lemma clear_dec v t : {clear_of v t} + {~ clear_of v t}.
Proof. unfold clear_of. destruct (Z_le_gt_dec (snd v) (fst t)); [ left; lia | ]. destruct (Z_le_gt_dec (snd t) (fst v)); [ left; lia | right; lia ]. Qed.

Lemma put_after_spec v r : fst v < snd v -> forall s, row_ok (s :: r) -> ~ snd v <= fst s ->
  (forall t, In t (s :: r) -> clear_of v t) ->
  exists r', put_after v s r = Ok (s :: r') /\ row_ok (s :: r') /\ (forall t, In t r' <-> t = v \/ In t r).
Proof.
  intros V. induction r as [|a r IH]; intros s O B D; cbn [put_after].
  - destruct (D s (or_introl eq_refl)) as [X | X]; [ lia | ]. apply Z.leb_le in X as X'. rewrite X'. exists [v].
    apply row_ok_cons in O. destruct O as (O1 & O2 & O3). split; [ reflexivity | ]. split.
    + apply row_ok_cons. split; [ exact O1 | ]. split; [ intros t [T | []]; subst t; exact X | ].
      apply row_ok_cons. split; [ exact V | ]. split; [ intros ? [] | exact row_ok_nil ].
    + intros t. cbn. intuition congruence.
  - apply row_ok_cons in O. destruct O as (O1 & O2 & O3).
    destruct (D s (or_introl eq_refl)) as [X | X]; [ lia | ]. apply Z.leb_le in X as X'. rewrite X'. cbn [andb].
    destruct (snd v <=? fst a) eqn:Q.
    + apply Z.leb_le in Q. exists (v :: a :: r). split; [ reflexivity | ]. split; [ | intros t; cbn; intuition congruence ].
      apply row_ok_cons. split; [ exact O1 | ]. split; [ intros t [T | T]; [ subst t; exact X | apply O2, T ] | ].
      apply row_ok_cons. split; [ exact V | ]. split; [ | exact O3 ].
      intros t [T | T]; [ subst t; exact Q | ]. apply row_ok_cons in O3. destruct O3 as (P1 & P2 & P3). specialize (P2 _ T). lia.
    + apply Z.leb_gt in Q. destruct (IH a O3 ltac:(lia) (fun t T => D t (or_intror T))) as (r' & E & K & I).
      rewrite E. cbn [bind]. exists (a :: r'). split; [ reflexivity | ]. split; [ | intros t; cbn; rewrite I; intuition congruence ].
      apply row_ok_cons. split; [ exact O1 | ]. split; [ | exact K ].
      intros t [T | T]; [ subst t; apply O2; left; reflexivity | ]. apply I in T. destruct T as [T | T]; [ subst t; exact X | apply O2; right; exact T ].
Qed.
Lemma put_after_hit v r : forall s, row_ok (s :: r) -> fst v < snd s -> put_after v s r = Throw NoImplErr.
Proof.
  induction r as [|a r IH]; intros s O L; cbn [put_after].
  - destruct (snd s <=? fst v) eqn:Q; [ apply Z.leb_le in Q; lia | reflexivity ].
  - destruct (snd s <=? fst v) eqn:Q; [ apply Z.leb_le in Q; lia | cbn [andb] ].
    apply row_ok_cons in O. destruct O as (O1 & O2 & O3). specialize (O2 a (or_introl eq_refl)).
    rewrite IH; [ reflexivity | exact O3 | ]. apply row_ok_cons in O3. lia.
Qed.
Lemma put_after_throws v r : fst v < snd v -> forall s, row_ok (s :: r) ->
  (exists t, In t (s :: r) /\ ~ clear_of v t) -> ~ snd v <= fst s -> put_after v s r = Throw NoImplErr.
Proof.
  intros V. induction r as [|a r IH]; intros s O (t & T & D) B.
  - destruct T as [T | []]. subst t. unfold clear_of in D. apply put_after_hit; [ exact O | lia ].
  - destruct (Z_lt_ge_dec (fst v) (snd s)) as [L | L]; [ apply put_after_hit; assumption | ]. cbn [put_after].
    apply row_ok_cons in O. destruct O as (O1 & O2 & O3).
    assert (T' : In t (a :: r)) by (destruct T as [T | T]; [ subst t; exfalso; apply D; right; lia | exact T ]).
    assert (B' : ~ snd v <= fst a).
    { intros X. apply D. left. destruct T' as [T' | T']; [ subst t; exact X | ].
      apply row_ok_cons in O3. destruct O3 as (P1 & P2 & P3). specialize (P2 _ T'). lia. }
    destruct (snd v <=? fst a) eqn:Q; [ apply Z.leb_le in Q; lia | ]. rewrite andb_false_r.
    rewrite IH; [ reflexivity | exact O3 | exists t; auto | exact B' ].
Qed.

Lemma put_seg_spec v r : fst v < snd v -> row_ok r -> (forall t, In t r -> clear_of v t) ->
  exists r', put_seg v r = Ok r' /\ row_ok r' /\ (forall t, In t r' <-> t = v \/ In t r).
Proof.
  intros V O D. destruct r as [|s r]; cbn [put_seg].
  - exists [v]. split; [ reflexivity | ]. split; [ | intros t; cbn; intuition congruence ].
    apply row_ok_cons. split; [ exact V | ]. split; [ intros ? [] | exact O ].
  - destruct (snd v <=? fst s) eqn:Q.
    + apply Z.leb_le in Q. exists (v :: s :: r). split; [ reflexivity | ]. split; [ | intros t; cbn; intuition congruence ].
      apply row_ok_cons. split; [ exact V | ]. split; [ | exact O ].
      apply row_ok_cons in O. destruct O as (O1 & O2 & O3). intros t [T | T]; [ subst t; exact Q | specialize (O2 _ T); lia ].
    + apply Z.leb_gt in Q. destruct (put_after_spec v r V s O ltac:(lia) D) as (r' & E & K & I).
      exists (s :: r'). split; [ exact E | ]. split; [ exact K | ]. intros t. cbn. rewrite I. intuition congruence.
Qed.
Lemma put_seg_throws v r : fst v < snd v -> row_ok r -> (exists t, In t r /\ ~ clear_of v t) -> put_seg v r = Throw NoImplErr.
Proof.
  intros V O (t & T & D). destruct r as [|s r]; [ destruct T | ]. cbn [put_seg].
  destruct (snd v <=? fst s) eqn:Q.
  - apply Z.leb_le in Q. exfalso. apply D. left. apply row_ok_cons in O. destruct O as (O1 & O2 & O3).
    destruct T as [T | T]; [ subst t; exact Q | specialize (O2 _ T); lia ].
  - apply Z.leb_gt in Q. apply put_after_throws; [ exact V | exact O | exists t; auto | lia ].
Qed.

Lemma put_segs_spec vs : forall r, row_ok vs -> row_ok r -> (forall v t, In v vs -> In t r -> clear_of v t) ->
  exists r', put_segs vs r = Ok r' /\ row_ok r' /\ (forall t, In t r' <-> In t vs \/ In t r).
Proof.
  induction vs as [|v vs IH]; intros r V O D; cbn [put_segs].
  - exists r. split; [ reflexivity | ]. split; [ exact O | ]. intros t. cbn. tauto.
  - apply row_ok_cons in V. destruct V as (V1 & V2 & V3).
    destruct (put_seg_spec v r V1 O (fun t T => D v t (or_introl eq_refl) T)) as (r1 & E1 & K1 & I1). rewrite E1. cbn [bind].
    destruct (IH r1 V3 K1) as (r2 & E2 & K2 & I2).
    { intros v' t' W T. apply I1 in T. destruct T as [T | T]; [ subst t'; right; apply V2, W | apply D; [ right; exact W | exact T ] ]. }
    exists r2. split; [ exact E2 | ]. split; [ exact K2 | ]. intros t. rewrite I2, I1. cbn. intuition congruence.
Qed.
Lemma put_segs_throws vs : forall r, row_ok vs -> row_ok r -> (exists v t, In v vs /\ In t r /\ ~ clear_of v t) ->
  put_segs vs r = Throw NoImplErr.
Proof.
  induction vs as [|v vs IH]; intros r V O (v0 & t0 & W & T & D); [ destruct W | ]. cbn [put_segs].
  apply row_ok_cons in V. destruct V as (V1 & V2 & V3).
  destruct (Forall_Exists_dec (clear_of v) (clear_dec v) r) as [C | C].
  - rewrite Forall_forall in C. destruct (put_seg_spec v r V1 O C) as (r1 & E1 & K1 & I1). rewrite E1. cbn [bind].
    apply IH; [ exact V3 | exact K1 | ]. exists v0, t0. split; [ | split; [ apply I1; right; exact T | exact D ] ].
    destruct W as [W | W]; [ subst v0; destruct (D (C _ T)) | exact W ].
  - apply Exists_exists in C. rewrite put_seg_throws; [ reflexivity | exact V1 | exact O | exact C ].
Qed.

Lemma covers_in r r' vs : (forall t, In t r' <-> In t vs \/ In t r) -> forall x, covers r' x <-> covers vs x \/ covers r x.
Proof.
  intros I x. split.
  - intros (s & e & H & L). apply I in H. destruct H as [H | H]; [ left | right ]; exists s, e; auto.
  - intros [(s & e & H & L) | (s & e & H & L)]; exists s, e; (split; [ apply I; auto | exact L ]).
Qed.
Lemma covers_disjoint vs r : row_ok vs -> row_ok r -> (forall x, covers vs x -> covers r x -> False) ->
  forall v t, In v vs -> In t r -> clear_of v t.
Proof.
  intros (_ & V) (_ & O) D v t W T. rewrite Forall_forall in V, O. specialize (V _ W). specialize (O _ T).
  destruct (clear_dec v t) as [C | C]; [ exact C | ]. exfalso. unfold clear_of in C.
  apply (D (Z.max (fst v) (fst t))).
  - exists (fst v), (snd v). split; [ destruct v; exact W | lia ].
  - exists (fst t), (snd t). split; [ destruct t; exact T | lia ].
Qed.

(* ---- merging the shared rows ---- *)
Lemma zlen_upd {A} (l : list A) i v : zlen (upd l i v) = zlen l.
Proof. unfold zlen. rewrite upd_length. reflexivity. Qed.
Lemma zrow_upd l i v j : 0 <= i < zlen l -> zrow (upd l (Z.to_nat i) v) j = if j =? i then v else zrow l j.
Proof.
  intros I. destruct (Z_lt_ge_dec j 0) as [L | L].
  - rewrite !zrow_out by (rewrite ?zlen_upd; lia). destruct (j =? i) eqn:Q; [ apply Z.eqb_eq in Q; lia | reflexivity ].
  - destruct (Z_lt_ge_dec j (zlen l)) as [M | M].
    + rewrite !zrow_in by (rewrite ?zlen_upd; lia). destruct (j =? i) eqn:Q.
      * apply Z.eqb_eq in Q. subst j. apply upd_nth_eq. unfold zlen in I. lia.
      * apply Z.eqb_neq in Q. apply upd_nth_neq. lia.
    + rewrite !zrow_out by (rewrite ?zlen_upd; lia). destruct (j =? i) eqn:Q; [ apply Z.eqb_eq in Q; lia | reflexivity ].
Qed.
Lemma zlen_cons {A} (a : A) l : zlen (a :: l) = zlen l + 1.
Proof. unfold zlen. cbn [length]. lia. Qed.
Lemma zrow_cons r l j : zrow (r :: l) j = if j =? 0 then r else zrow l (j - 1).
Proof.
  destruct (j =? 0) eqn:Q; [ apply Z.eqb_eq in Q; subst j; apply zrow_in; rewrite zlen_cons; pose proof (zlen_pos l); lia | ].
  apply Z.eqb_neq in Q. destruct (Z_lt_ge_dec j 0); [ rewrite !zrow_out by lia; reflexivity | ].
  destruct (Z_lt_ge_dec j (zlen l + 1)).
  - rewrite !zrow_in by (rewrite ?zlen_cons; lia). replace (Z.to_nat j) with (S (Z.to_nat (j - 1))) by lia. reflexivity.
  - rewrite !zrow_out by (rewrite ?zlen_cons; lia). reflexivity.
Qed.

Lemma merge_rows_spec dx vs : forall l k, rows_ok vs -> rows_ok l ->
  (forall j x, covers (zrow l j) x -> covers (zrow vs (j - k)) (x - dx) -> False) ->
  exists l', merge_rows l k dx vs = Ok l' /\ zlen l' = zlen l /\ rows_ok l' /\
    forall j x, covers (zrow l' j) x <-> covers (zrow l j) x \/ 0 <= j < zlen l /\ covers (zrow vs (j - k)) (x - dx).
Proof.
  induction vs as [|v vs IH]; intros l k V O D; cbn [merge_rows].
  - exists l. split; [ reflexivity | ]. split; [ reflexivity | ]. split; [ exact O | ]. intros j x.
    rewrite (zrow_out [] (j - k)) by (unfold zlen; cbn; lia). split; [ auto | ]. intros [H | (_ & H)]; [ exact H | destruct (covers_nil _ H) ].
  - assert (Vv : row_ok (shift_row dx v)) by (apply row_ok_shift, V; left; reflexivity).
    assert (Vs : rows_ok vs) by (intros r R; apply V; right; exact R).
    fold (zlen l). destruct ((0 <=? k) && (k <? zlen l)) eqn:Q.
    + apply andb_prop in Q. destruct Q as (Q1 & Q2). apply Z.leb_le in Q1. apply Z.ltb_lt in Q2.
      rewrite <- zrow_in by lia.
      destruct (proj1 (rows_ok_zrow l) O k ltac:(lia)) as (Nk & Ok_).
      destruct (put_segs_spec (shift_row dx v) (zrow l k) Vv Ok_) as (r' & E & K & I).
      { apply covers_disjoint; auto. intros x A B. apply (D k x B). replace (k - k) with 0 by lia. rewrite zrow_cons. cbn.
        rewrite covers_shift in A. exact A. }
      rewrite E. cbn [bind]. pose proof (covers_in _ _ _ I) as C.
      destruct (IH (upd l (Z.to_nat k) r') (k + 1) Vs) as (l' & E' & L' & O' & C').
      * apply rows_ok_zrow. rewrite zlen_upd. intros j J. rewrite zrow_upd by lia. destruct (j =? k) eqn:Qj.
        -- split; [ | exact K ]. intros Er. subst r'. destruct (zrow l k) as [|s t] eqn:Z0; [ congruence | ].
           apply (proj2 (I s)). right; left; reflexivity.
        -- apply (proj1 (rows_ok_zrow l) O j J).
      * intros j x. rewrite zrow_upd by lia. destruct (j =? k) eqn:Qj.
        -- apply Z.eqb_eq in Qj. subst j. intros _ X. rewrite zrow_out in X by lia. destruct (covers_nil _ X).
        -- apply Z.eqb_neq in Qj. intros A X. apply (D j x A). rewrite zrow_cons. destruct (j - k =? 0) eqn:Qk; [ apply Z.eqb_eq in Qk; lia | ].
           replace (j - k - 1) with (j - (k + 1)) by lia. exact X.
      * rewrite zlen_upd in L', C'. exists l'. split; [ exact E' | ]. split; [ exact L' | ]. split; [ exact O' | ].
        intros j x. rewrite C', zrow_upd by lia. rewrite zrow_cons. destruct (j =? k) eqn:Qj.
        -- apply Z.eqb_eq in Qj. subst j. replace (k - k =? 0) with true by (symmetry; apply Z.eqb_eq; lia).
           rewrite C, covers_shift. rewrite (zrow_out vs) by lia. split.
           ++ intros [[H | H] | (_ & H)]; [ right; split; [ lia | exact H ] | left; exact H | destruct (covers_nil _ H) ].
           ++ intros [H | (_ & H)]; [ left; right; exact H | left; left; exact H ].
        -- apply Z.eqb_neq in Qj. replace (j - k =? 0) with false by (symmetry; apply Z.eqb_neq; lia).
           replace (j - k - 1) with (j - (k + 1)) by lia. reflexivity.
    + apply andb_false_iff in Q. assert (Qk : ~ (0 <= k < zlen l)) by (destruct Q as [Q | Q]; [ apply Z.leb_gt in Q | apply Z.ltb_ge in Q ]; lia).
      cbn [bind]. destruct (IH l (k + 1) Vs O) as (l' & E' & L' & O' & C').
      * intros j x A X. apply (D j x A). rewrite zrow_cons. destruct (j - k =? 0) eqn:Qj.
        -- apply Z.eqb_eq in Qj. rewrite zrow_out in X by lia. destruct (covers_nil _ X).
        -- replace (j - k - 1) with (j - (k + 1)) by lia. exact X.
      * exists l'. split; [ exact E' | ]. split; [ exact L' | ]. split; [ exact O' | ].
        intros j x. rewrite C', zrow_cons. destruct (j - k =? 0) eqn:Qj.
        -- apply Z.eqb_eq in Qj. assert (j = k) by lia. subst j. rewrite (zrow_out vs) by lia. split.
           ++ intros [H | (_ & H)]; [ left; exact H | destruct (covers_nil _ H) ].
           ++ intros [H | (H & _)]; [ left; exact H | lia ].
        -- replace (j - k - 1) with (j - (k + 1)) by lia. reflexivity.
Qed.

Lemma merge_rows_throws dx vs : forall l k, rows_ok vs -> rows_ok l ->
  (exists j x, covers (zrow l j) x /\ covers (zrow vs (j - k)) (x - dx)) ->
  merge_rows l k dx vs = Throw NoImplErr.
Proof.
  induction vs as [|v vs IH]; intros l k V O (j0 & x0 & A0 & B0); cbn [merge_rows].
  - rewrite zrow_out in B0 by (unfold zlen; cbn; lia). destruct (covers_nil _ B0).
  - assert (Vv : row_ok (shift_row dx v)) by (apply row_ok_shift, V; left; reflexivity).
    assert (Vs : rows_ok vs) by (intros r R; apply V; right; exact R).
    assert (J0 : 0 <= j0 < zlen l).
    { destruct (Z_lt_ge_dec j0 0); [ rewrite zrow_out in A0 by lia; destruct (covers_nil _ A0) | ].
      destruct (Z_lt_ge_dec j0 (zlen l)); [ lia | rewrite zrow_out in A0 by lia; destruct (covers_nil _ A0) ]. }
    rewrite zrow_cons in B0.
    fold (zlen l). destruct ((0 <=? k) && (k <? zlen l)) eqn:Q.
    + apply andb_prop in Q. destruct Q as (Q1 & Q2). apply Z.leb_le in Q1. apply Z.ltb_lt in Q2.
      rewrite <- zrow_in by lia.
      destruct (proj1 (rows_ok_zrow l) O k ltac:(lia)) as (Nk & Ok_).
      set (hit := fun v' => Exists (fun t => ~ clear_of v' t) (zrow l k)).
      assert (Dh : forall v', {hit v'} + {~ hit v'}).
      { intros v'. apply Exists_dec. intros t. destruct (clear_dec v' t); [ right; tauto | left; assumption ]. }
      destruct (Exists_dec hit (shift_row dx v) Dh) as [X | X].
      * apply Exists_exists in X. destruct X as (v' & W & X). apply Exists_exists in X. destruct X as (t & T & X).
        rewrite put_segs_throws; [ reflexivity | exact Vv | exact Ok_ | exists v', t; auto ].
      * assert (Cl : forall v' t, In v' (shift_row dx v) -> In t (zrow l k) -> clear_of v' t).
        { intros v' t W T. destruct (clear_dec v' t) as [C | C]; [ exact C | ]. exfalso. apply X. apply Exists_exists. exists v'.
          split; [ exact W | ]. apply Exists_exists. exists t. auto. }
        destruct (put_segs_spec _ _ Vv Ok_ Cl) as (r' & E & K & I). rewrite E. cbn [bind]. pose proof (covers_in _ _ _ I) as C.
        apply IH; [ exact Vs | | ].
        -- apply rows_ok_zrow. rewrite zlen_upd. intros j J. rewrite zrow_upd by lia. destruct (j =? k) eqn:Qj.
           ++ split; [ | exact K ]. intros Er. subst r'. destruct (zrow l k) as [|s t] eqn:Z0; [ congruence | ].
              apply (proj2 (I s)). right; left; reflexivity.
           ++ apply (proj1 (rows_ok_zrow l) O j J).
        -- exists j0, x0. rewrite zrow_upd by lia. destruct (j0 =? k) eqn:Qj.
           ++ exfalso. apply Z.eqb_eq in Qj. subst j0. replace (k - k =? 0) with true in B0 by (symmetry; apply Z.eqb_eq; lia).
              destruct A0 as (s & e & I1 & L1).
              assert (B1 : covers (shift_row dx v) x0) by (rewrite covers_shift; exact B0).
              destruct B1 as (s' & e' & I2 & L2).
              specialize (Cl _ _ I2 I1). unfold clear_of in Cl. cbn in Cl. lia.
           ++ apply Z.eqb_neq in Qj. split; [ exact A0 | ]. replace (j0 - k =? 0) with false in B0 by (symmetry; apply Z.eqb_neq; lia).
              replace (j0 - (k + 1)) with (j0 - k - 1) by lia. exact B0.
    + apply andb_false_iff in Q. assert (Qk : ~ (0 <= k < zlen l)) by (destruct Q as [Q | Q]; [ apply Z.leb_gt in Q | apply Z.ltb_ge in Q ]; lia).
      cbn [bind]. apply IH; [ exact Vs | exact O | ]. exists j0, x0. split; [ exact A0 | ].
      replace (j0 - k =? 0) with false in B0 by (symmetry; apply Z.eqb_neq; lia).
      replace (j0 - (k + 1)) with (j0 - k - 1) by lia. exact B0.
Qed.

(* ---- the rows only the victim has ---- *)
Lemma extra_len v dx a b : zlen (extra_rows v dx a b) = Z.max 0 (b - a).
Proof. unfold zlen, extra_rows. rewrite map_length, zrange_length. lia. Qed.
Lemma extra_zrow v dx a b j : 0 <= j < b - a -> zrow (extra_rows v dx a b) j = shift_row dx (zrow (rows v) (a + j)).
Proof.
  intros J. rewrite zrow_in by (rewrite extra_len; lia). unfold extra_rows.
  set (f := fun i => if (0 <=? i) && (i <? nrows v) then shift_row dx (nth (Z.to_nat i) (rows v) []) else []).
  rewrite nth_indep with (d' := f 0) by (rewrite map_length, zrange_length; lia). rewrite map_nth.
  unfold zrange. replace (nth (Z.to_nat j) (zseq a (Z.to_nat (b - a))) 0) with (a + j).
  - unfold f, zrow, nrows, zlen. destruct ((0 <=? a + j) && (a + j <? Z.of_nat (length (rows v)))); reflexivity.
  - rewrite (zseq_nth (Z.to_nat (b - a)) a (Z.to_nat j) 0) by lia. lia.
Qed.

Lemma has_rows b x y : has b x y -> by_ b <= y < by_ b + nrows b.
Proof. intros (k & r & E & Y & C). pose proof (nth_error_lt _ _ _ E). unfold nrows. lia. Qed.
Lemma nrows_zlen b : nrows b = zlen (rows b). Proof. reflexivity. Qed.

Lemma zlen_ne {A} (l : list A) : l <> [] -> 0 < zlen l.
Proof. destruct l as [|a t]; [ congruence | rewrite zlen_cons; pose proof (zlen_pos t); lia ]. Qed.

Section Absorb.
  Variables b v : blob.
  Hypothesis Ob : blob_ok b.
  Hypothesis Ov : blob_ok v.
  Local Notation dx := (bx v - bx b).
  Local Notation k := (by_ v - by_ b).

  Lemma absorb_spec : disjoint (has b) (has v) -> by_ v <= by_ b + nrows b -> by_ b <= by_ v + nrows v ->
    exists b', absorb b v = Ok b' /\ blob_ok b' /\ Forall apart (rows b') /\
      forall x y, has b' x y <-> has b x y \/ has v x y.
  Proof.
    intros D G1 G2. destruct (blob_ok_rows b Ob) as (Rb & Nb). destruct (blob_ok_rows v Ov) as (Rv & Nv).
    rewrite nrows_zlen in G1, G2.
    assert (Lv : 0 < zlen (rows v)) by (apply zlen_ne; assumption).
    destruct (merge_rows_spec dx (rows v) (rows b) k Rv Rb) as (l1 & E1 & L1 & O1 & C1).
    { intros j x A B. apply (D (x + bx b) (by_ b + j)).
      - apply has_zrow. replace (by_ b + j - by_ b) with j by lia. replace (x + bx b - bx b) with x by lia. exact A.
      - apply has_zrow. replace (by_ b + j - by_ v) with (j - k) by lia. replace (x + bx b - bx v) with (x - dx) by lia. exact B. }
    unfold absorb. destruct (rows b) as [|r0 t0] eqn:Eb; [ congruence | ]. rewrite <- Eb in *. clear r0 t0 Eb.
    rewrite E1. cbn [bind].
    set (p2 := if by_ v <? by_ b then (by_ v, extra_rows v dx 0 (by_ b - by_ v) ++ l1) else (by_ b, l1)).
    assert (P2 : rows_ok (snd p2) /\ fst p2 = Z.min (by_ b) (by_ v) /\ fst p2 + zlen (snd p2) = by_ b + zlen (rows b) /\
      forall y x, covers (zrow (snd p2) (y - fst p2)) x <-> covers (zrow (rows b) (y - by_ b)) x \/
        y < by_ b + zlen (rows b) /\ covers (zrow (rows v) (y - by_ v)) (x - dx)).
    { unfold p2. destruct (by_ v <? by_ b) eqn:Q; cbn [fst snd]; [ apply Z.ltb_lt in Q | apply Z.ltb_ge in Q ].
      - assert (El : zlen (extra_rows v dx 0 (by_ b - by_ v)) = by_ b - by_ v) by (rewrite extra_len; lia).
        split; [ | split; [ lia | split; [ rewrite zlen_app; lia | ] ] ].
        + apply rows_ok_zrow. rewrite zlen_app, El. intros j J. rewrite zrow_app, El.
          destruct (j <? by_ b - by_ v) eqn:Qj; [ apply Z.ltb_lt in Qj | apply Z.ltb_ge in Qj ].
          * rewrite extra_zrow by lia. destruct (proj1 (rows_ok_zrow _) Rv (0 + j) ltac:(lia)) as (N & K).
            split; [ destruct (zrow (rows v) (0 + j)); [ congruence | discriminate ] | apply row_ok_shift, K ].
          * apply (proj1 (rows_ok_zrow _) O1). lia.
        + intros y x. rewrite zrow_app, El. destruct (y - by_ v <? by_ b - by_ v) eqn:Qj; [ apply Z.ltb_lt in Qj | apply Z.ltb_ge in Qj ].
          * rewrite (zrow_out (rows b)) by lia. destruct (Z_lt_ge_dec (y - by_ v) 0).
            -- rewrite !zrow_out by lia. split; [ intros H; destruct (covers_nil _ H) | intros [H | (_ & H)]; destruct (covers_nil _ H) ].
            -- rewrite extra_zrow by lia. rewrite covers_shift. replace (0 + (y - by_ v)) with (y - by_ v) by lia.
               pose proof (zlen_pos (rows b)). split; [ intros H'; right; split; [ lia | exact H' ] | intros [H' | (_ & H')]; [ destruct (covers_nil _ H') | exact H' ] ].
          * replace (y - by_ v - (by_ b - by_ v)) with (y - by_ b) by lia. rewrite C1.
            replace (y - by_ b - k) with (y - by_ v) by lia. split; (intros [H | (J & H)]; [ left; exact H | right; split; [ lia | exact H ] ]).
      - split; [ exact O1 | ]. split; [ lia | ]. split; [ lia | ]. intros y x. rewrite C1.
        replace (y - by_ b - k) with (y - by_ v) by lia. split; (intros [H | (J & H)]; [ left; exact H | right; split; [ | exact H ] ]); [ lia | ].
        destruct (Z_lt_ge_dec (y - by_ v) 0); [ rewrite zrow_out in H by lia; destruct (covers_nil _ H) | lia ]. }
    clearbody p2. destruct p2 as (y2, l2). cbn [fst snd] in P2. destruct P2 as (O2 & Y2 & L2 & C2).
    fold (zlen l2). rewrite nrows_zlen.
    set (l3 := if y2 + zlen l2 <? zlen (rows v) + by_ v then l2 ++ extra_rows v dx (zlen l2 + y2 - by_ v) (zlen (rows v)) else l2).
    assert (P3 : rows_ok l3 /\ l3 <> [] /\ forall y x, covers (zrow l3 (y - y2)) x <->
        covers (zrow (rows b) (y - by_ b)) x \/ covers (zrow (rows v) (y - by_ v)) (x - dx)).
    { assert (Lb : 0 < zlen (rows b)) by (apply zlen_ne; assumption).
      assert (N2 : l2 <> []) by (intros E; subst l2; cbn in L2; unfold zlen in L2; cbn [length] in L2; fold (zlen (rows b)) in L2; lia).
      unfold l3. destruct (y2 + zlen l2 <? zlen (rows v) + by_ v) eqn:Q; [ apply Z.ltb_lt in Q | apply Z.ltb_ge in Q ].
      - assert (El : zlen (extra_rows v dx (zlen l2 + y2 - by_ v) (zlen (rows v))) = zlen (rows v) - (zlen l2 + y2 - by_ v)) by (rewrite extra_len; lia).
        split; [ | split ].
        + apply rows_ok_zrow. rewrite zlen_app, El. intros j J. rewrite zrow_app.
          destruct (j <? zlen l2) eqn:Qj; [ apply Z.ltb_lt in Qj | apply Z.ltb_ge in Qj ].
          * apply (proj1 (rows_ok_zrow _) O2). lia.
          * rewrite extra_zrow by lia. destruct (proj1 (rows_ok_zrow _) Rv (zlen l2 + y2 - by_ v + (j - zlen l2)) ltac:(lia)) as (N & K).
            split; [ destruct (zrow (rows v) (zlen l2 + y2 - by_ v + (j - zlen l2))); [ congruence | discriminate ] | apply row_ok_shift, K ].
        + destruct l2; [ congruence | discriminate ].
        + intros y x. rewrite zrow_app. destruct (y - y2 <? zlen l2) eqn:Qj; [ apply Z.ltb_lt in Qj | apply Z.ltb_ge in Qj ].
          * rewrite C2. split; [ intros [H | (_ & H)]; auto | intros [H | H]; [ auto | right; split; [ lia | exact H ] ] ].
          * rewrite (zrow_out (rows b)) by lia. destruct (Z_lt_ge_dec (y - by_ v) (zlen (rows v))).
            -- rewrite extra_zrow by lia. rewrite covers_shift. replace (zlen l2 + y2 - by_ v + (y - y2 - zlen l2)) with (y - by_ v) by lia.
               split; [ auto | intros [H | H]; [ destruct (covers_nil _ H) | exact H ] ].
            -- rewrite zrow_out by lia. rewrite (zrow_out (rows v)) by lia. split; [ intros H; destruct (covers_nil _ H) | intros [H | H]; destruct (covers_nil _ H) ].
      - split; [ exact O2 | ]. split; [ exact N2 | ]. intros y x. rewrite C2.
        split; [ intros [H | (_ & H)]; auto | intros [H | H]; [ auto | right; split; [ | exact H ] ] ].
        destruct (Z_lt_ge_dec (y - by_ v) (zlen (rows v))); [ lia | rewrite zrow_out in H by lia; destruct (covers_nil _ H) ]. }
    clearbody l3. destruct P3 as (O3 & N3 & C3).
    destruct (first_lowest_spec l3 O3 N3) as (low & El & Fl & Xl). rewrite El. cbn [bind].
    pose proof (shift_least_ok (Blob (bx b) y2 l3) low O3 Fl Xl) as Os.
    destruct (refactor_spec _ Os) as (b' & Er & Ok' & Ap & _ & _ & _ & Ch).
    exists b'. split; [ exact Er | ]. split; [ exact Ok' | ]. split; [ exact Ap | ].
    intros x y. rewrite Ch, has_shift_x, !has_zrow. cbn [rows bx by_]. rewrite C3.
    replace (x - bx b - dx) with (x - bx v) by lia. reflexivity.
  Qed.

  Lemma absorb_throws : (exists x y, has b x y /\ has v x y) -> absorb b v = Throw NoImplErr.
  Proof.
    intros (x & y & A & B). destruct (blob_ok_rows b Ob) as (Rb & Nb). destruct (blob_ok_rows v Ov) as (Rv & Nv).
    unfold absorb. destruct (rows b) as [|r0 t0] eqn:Eb; [ congruence | ]. rewrite <- Eb in *. clear r0 t0 Eb.
    rewrite merge_rows_throws; [ reflexivity | exact Rv | exact Rb | ].
    apply has_zrow in A. apply has_zrow in B. exists (y - by_ b), (x - bx b). split; [ exact A | ].
    replace (y - by_ b - k) with (y - by_ v) by lia. replace (x - bx b - dx) with (x - bx v) by lia. exact B.
  Qed.
End Absorb.

(* ---- add_row ---- *)
Lemma push_last_snoc l r s : push_last (l ++ [r]) s = l ++ [r ++ [s]].
Proof. unfold push_last. rewrite rev_app_distr. cbn [rev app]. rewrite rev_involutive. reflexivity. Qed.

Lemma has_snoc X Y l r x y : has (Blob X Y (l ++ [r])) x y <->
  has (Blob X Y l) x y \/ y = Y + zlen l /\ covers r (x - X).
Proof.
  rewrite !has_zrow. cbn [rows bx by_]. rewrite zrow_app. destruct (y - Y <? zlen l) eqn:Q; [ apply Z.ltb_lt in Q | apply Z.ltb_ge in Q ].
  - split; [ auto | intros [H | (E & _)]; [ exact H | lia ] ].
  - rewrite (zrow_out l) by lia. rewrite zrow_cons. destruct (y - Y - zlen l =? 0) eqn:Q0; [ apply Z.eqb_eq in Q0 | apply Z.eqb_neq in Q0 ].
    + split; [ intros H; right; split; [ lia | exact H ] | intros [H | (_ & H)]; [ destruct (covers_nil _ H) | exact H ] ].
    + rewrite zrow_out by (unfold zlen; cbn [length]; lia). split; [ intros H; destruct (covers_nil _ H) | intros [H | (E & _)]; [ destruct (covers_nil _ H) | lia ] ].
Qed.
Lemma covers_one a w x : covers [(a, a + w)] x <-> a <= x < a + w.
Proof. rewrite covers_cons. cbn [fst snd]. split; [ intros [H | H]; [ exact H | destruct (covers_nil _ H) ] | auto ]. Qed.

(* appending to the last row, then moving the left edge if need be *)
Lemma finish_row X Y l r a w : rows_ok l -> row_ok r -> 0 < w -> (forall t, In t r -> snd t <= a) ->
  (forall r' s, In r' (l ++ [r]) -> In s r' -> 0 <= fst s) -> (exists r' s, In r' (l ++ [r]) /\ In s r' /\ fst s = 0) ->
  let b' := Blob X Y (l ++ [r ++ [(a, a + w)]]) in
  let b'' := if a <? 0 then shift_x a b' else b' in
  blob_ok b'' /\ forall x y, has b'' x y <-> has (Blob X Y (l ++ [r])) x y \/ y = Y + zlen l /\ X + a <= x < X + a + w.
Proof.
  intros Ol Or W B Nn (r0 & s0 & R0 & S0 & Z0) b' b''.
  assert (Orow : row_ok (r ++ [(a, a + w)])) by (apply row_ok_snoc; [ exact Or | cbn; lia | exact B ]).
  assert (Ob' : rows_ok (rows b')).
  { unfold b'. cbn [rows]. intros r' H. apply in_app_or in H. destruct H as [H | [H | []]]; [ apply Ol, H | subst r'; split; [ destruct r; discriminate | exact Orow ] ]. }
  assert (Hb' : forall x y, has b' x y <-> has (Blob X Y (l ++ [r])) x y \/ y = Y + zlen l /\ X + a <= x < X + a + w).
  { intros x y. unfold b'. rewrite !has_snoc, covers_app, covers_one. intuition lia. }
  assert (Rin : forall r' s, In r' (rows b') -> In s r' -> (exists r1, In r1 (l ++ [r]) /\ In s r1) \/ s = (a, a + w)).
  { unfold b'. cbn [rows]. intros r' s H S. apply in_app_or in H. destruct H as [H | [H | []]].
    - left. exists r'. split; [ apply in_or_app; auto | exact S ].
    - subst r'. apply in_app_or in S. destruct S as [S | [S | []]]; [ left; exists r; split; [ apply in_or_app; right; left; reflexivity | exact S ] | right; congruence ]. }
  unfold b''. destruct (a <? 0) eqn:Q; [ apply Z.ltb_lt in Q | apply Z.ltb_ge in Q ].
  - split; [ | intros x y; rewrite has_shift_x; apply Hb' ]. apply shift_least_ok; [ exact Ob' | | ].
    + intros r' s H S. destruct (Rin _ _ H S) as [(r1 & R1 & S1) | E]; [ specialize (Nn _ _ R1 S1); lia | subst s; cbn; lia ].
    + exists (r ++ [(a, a + w)]), (a, a + w). unfold b'. cbn [rows]. split; [ apply in_or_app; right; left; reflexivity | ].
      split; [ apply in_or_app; right; left; reflexivity | reflexivity ].
  - split; [ | exact Hb' ]. split.
    + intros r' H. destruct (Ob' _ H) as (N & K). split; [ exact N | split; [ exact K | ] ].
      intros s S. destruct (Rin _ _ H S) as [(r1 & R1 & S1) | E]; [ apply (Nn _ _ R1 S1) | subst s; cbn; lia ].
    + apply in_app_or in R0. unfold b'. cbn [rows]. destruct R0 as [R0 | [R0 | []]].
      * exists r0, s0. split; [ apply in_or_app; auto | auto ].
      * subst r0. exists (r ++ [(a, a + w)]), s0. split; [ apply in_or_app; right; left; reflexivity | ]. split; [ apply in_or_app; auto | exact Z0 ].
Qed.

Lemma row_seg_has b l r t : rows b = l ++ [r] -> row_ok r -> In t r -> has b (bx b + snd t - 1) (by_ b + zlen l).
Proof.
  intros E O T. apply has_zrow. rewrite E, zrow_app. replace (by_ b + zlen l - by_ b) with (zlen l) by lia. rewrite Z.ltb_irrefl.
  replace (zlen l - zlen l) with 0 by lia. rewrite zrow_cons. cbn. replace (bx b + snd t - 1 - bx b) with (snd t - 1) by lia.
  apply in_seg_covers; assumption.
Qed.

Lemma add_row_spec b x y w : blob_ok b -> bx b <> -1 -> 0 < w ->
  y = by_ b + nrows b \/ y = by_ b + nrows b - 1 ->
  (forall u v, has b u v -> v < y \/ v = y /\ u < x) ->
  exists b', add_row b x y w = Ok b' /\ blob_ok b' /\
    forall u v, has b' u v <-> has b u v \/ v = y /\ x <= u < x + w.
Proof.
  intros O M W Y B. destruct (blob_ok_rows b O) as (R & N).
  destruct (exists_last N) as (l & r & E). destruct O as (O1 & O2).
  assert (Or : r <> [] /\ row_ok r /\ forall s, In s r -> 0 <= fst s) by (apply O1; rewrite E; apply in_or_app; right; left; reflexivity).
  destruct Or as (Nr & Or & Pr).
  assert (Nl : nrows b = zlen l + 1) by (rewrite nrows_zlen, E, zlen_app; unfold zlen; cbn [length]; lia).
  assert (Ol : rows_ok l) by (intros r' H; apply R; rewrite E; apply in_or_app; left; exact H).
  assert (Eb : b = Blob (bx b) (by_ b) (l ++ [r])) by (rewrite <- E; destruct b; reflexivity).
  unfold add_row. destruct (bx b =? -1) eqn:Q; [ apply Z.eqb_eq in Q; congruence | ]. clear Q.
  destruct (negb ((y =? by_ b + nrows b) || (y =? by_ b + nrows b - 1))) eqn:Q.
  { apply negb_true_iff, orb_false_iff in Q. destruct Q as (Q1 & Q2). apply Z.eqb_neq in Q1. apply Z.eqb_neq in Q2. lia. }
  clear Q. assert (Sw : (x <? bx b) = (x - bx b <? 0)).
  { destruct (x <? bx b) eqn:Q1; destruct (x - bx b <? 0) eqn:Q2; auto; rewrite ?Z.ltb_lt, ?Z.ltb_ge in *; lia. }
  destruct (y =? by_ b + nrows b) eqn:Q; [ apply Z.eqb_eq in Q | apply Z.eqb_neq in Q ].
  - cbn [bind]. rewrite push_last_snoc. cbn [app]. rewrite Sw.
    destruct (finish_row (bx b) (by_ b) (rows b) [] (x - bx b) w R row_ok_nil W) as (F1 & F2).
    + intros ? [].
    + intros r' s H S. apply in_app_or in H. destruct H as [H | [H | []]]; [ apply (O1 _ H), S | subst r'; destruct S ].
    + destruct O2 as (r0 & s0 & R0 & S0). exists r0, s0. split; [ apply in_or_app; auto | exact S0 ].
    + cbn [app] in F1, F2. assert (Eta : Blob (bx b) (by_ b) (rows b) = b) by (destruct b; reflexivity).
      destruct (x - bx b <? 0); (eexists; split; [ reflexivity | ]; split; [ exact F1 | ]; intros u v; rewrite F2, has_snoc, Eta, <- nrows_zlen;
        split; [ intros [[H | (_ & H)] | (H1 & H2)]; [ auto | destruct (covers_nil _ H) | right; split; lia ] | intros [H | (H1 & H2)]; [ auto | right; split; lia ] ]).
  - replace (rev (rows b)) with (r :: rev l) by (rewrite E, rev_app_distr; reflexivity). destruct r as [|s t]; [ congruence | ].
    assert (By : y = by_ b + zlen l) by lia.
    assert (Bt : forall t', In t' (s :: t) -> snd t' <= x - bx b).
    { intros t' T. destruct (B (bx b + snd t' - 1) y) as [H | (_ & H)]; [ | lia | lia ].
      rewrite By. apply (row_seg_has b l (s :: t)); assumption. }
    destruct (x <? fst (last (s :: t) s) + bx b) eqn:Q1.
    { apply Z.ltb_lt in Q1. exfalso. pose proof (last_in s t s) as Li. pose proof (Bt _ Li) as Bl.
      destruct Or as (_ & Fo). rewrite Forall_forall in Fo. specialize (Fo _ Li). lia. }
    cbn [bind]. rewrite E, push_last_snoc, Sw.
    destruct (finish_row (bx b) (by_ b) l (s :: t) (x - bx b) w Ol Or W Bt) as (F1 & F2).
    + intros r' s' H S. rewrite <- E in H. apply (O1 _ H), S.
    + rewrite <- E. exact O2.
    + rewrite <- Eb in F2. destruct (x - bx b <? 0); (eexists; split; [ reflexivity | ]; split; [ exact F1 | ]; intros u v; rewrite F2, By; intuition lia).
Qed.
