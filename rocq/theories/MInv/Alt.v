(* Alternating multilinear functions of the rows of a matrix. *)
From Coq Require Import ZArith List Lia Bool QArith Qcanon Qcabs Field.
From Verif Require Import Lib.Base Lib.Img Lib.QSum Sky.Spec Sky.Algebra Sky.History MInv.Model MInv.Spec MInv.Proofs MInv.Solve.
Import ListNotations.
Local Open Scope Z_scope.

Notation fmat := (Z -> Z -> Qc).
(* row r replaced by v *)
Definition set_row (A : fmat) (r : Z) (v : Z -> Qc) : fmat := fun i j => if i =? r then v j else A i j.
Definition eq_on (n : Z) (A B : fmat) : Prop := forall i j, 0 <= i < n -> 0 <= j < n -> A i j = B i j.

Record alternating (n : Z) (f : fmat -> Qc) : Prop := {
  alt_ext : forall A B, eq_on n A B -> f A = f B;
  alt_plus : forall A r u v, 0 <= r < n -> f (set_row A r (fun j => u j + v j)%Qc) = (f (set_row A r u) + f (set_row A r v))%Qc;
  alt_scale : forall A r c u, 0 <= r < n -> f (set_row A r (fun j => c * u j)%Qc) = (c * f (set_row A r u))%Qc;
  alt_same : forall A r s, 0 <= r < n -> 0 <= s < n -> r <> s -> (forall j, 0 <= j < n -> A r j = A s j) -> f A = 0%Qc }.

Section Alt.
Variables (n : Z) (f : fmat -> Qc).
Hypothesis F : alternating n f.

Lemma set_row_same A r : eq_on n (set_row A r (A r)) A.
Proof. intros i j I J. unfold set_row. destruct (Z.eqb_spec i r); subst; auto. Qed.
Lemma alt_row A r u v : 0 <= r < n -> (forall j, 0 <= j < n -> u j = v j) -> f (set_row A r u) = f (set_row A r v).
Proof. intros R H. apply (alt_ext n f F). intros i j I J. unfold set_row. destruct (i =? r); auto. Qed.

Lemma alt_zero_row A r : 0 <= r < n -> f (set_row A r (fun _ => 0%Qc)) = 0%Qc.
Proof.
  intros R. rewrite (alt_row A r _ (fun j => 0 * 0)%Qc) by (auto; intros; ring).
  rewrite (alt_scale n f F A r 0%Qc (fun _ => 0%Qc)) by auto. ring.
Qed.

Lemma alt_sum A r a b (c : Z -> Qc) (V : Z -> Z -> Qc) : 0 <= r < n ->
  f (set_row A r (fun j => qsum a b (fun l => c l * V l j)%Qc)) = qsum a b (fun l => c l * f (set_row A r (V l)))%Qc.
Proof.
  intros R. unfold qsum. induction (zrange a b) as [|l ls IH]; cbn [fold_right].
  - now apply alt_zero_row.
  - rewrite (alt_plus n f F A r (fun j => c l * V l j)%Qc (fun j => fold_right (fun i s => (c i * V i j + s)%Qc) 0%Qc ls)) by auto.
    rewrite (alt_scale n f F A r (c l) (V l)) by auto. now rewrite IH.
Qed.

(* two rows exchanged *)
Lemma alt_swap A r s : 0 <= r < n -> 0 <= s < n -> r <> s -> f (fun i j => A (tau r s i) j) = (- f A)%Qc.
Proof.
  intros R S N.
  set (u := A r). set (v := A s).
  assert (E : f (set_row (set_row A r (fun j => u j + v j)%Qc) s (fun j => u j + v j)%Qc) = 0%Qc).
  { apply (alt_same n f F _ r s); auto. intros j J. unfold set_row. rewrite !Z.eqb_refl. destruct (Z.eqb_spec r s); [lia|auto]. }
  rewrite (alt_plus n f F) in E by auto.
  assert (C : forall x y w, f (set_row (set_row A r (fun j => x j + y j)%Qc) s w) = (f (set_row (set_row A r x) s w) + f (set_row (set_row A r y) s w))%Qc).
  { intros x y w.
    assert (D : forall z, f (set_row (set_row A r z) s w) = f (set_row (set_row A s w) r z)).
    { intros z. apply (alt_ext n f F). intros i j I J. unfold set_row. destruct (Z.eqb_spec i s), (Z.eqb_spec i r); auto. lia. }
    rewrite !D. now apply (alt_plus n f F). }
  rewrite !C in E.
  assert (Z1 : f (set_row (set_row A r u) s u) = 0%Qc).
  { apply (alt_same n f F _ r s); auto. intros j J. unfold set_row. rewrite !Z.eqb_refl. destruct (Z.eqb_spec r s); [lia|auto]. }
  assert (Z2 : f (set_row (set_row A r v) s v) = 0%Qc).
  { apply (alt_same n f F _ r s); auto. intros j J. unfold set_row. rewrite !Z.eqb_refl. destruct (Z.eqb_spec r s); [lia|auto]. }
  assert (E1 : f (set_row (set_row A r u) s v) = f A).
  { apply (alt_ext n f F). intros i j I J. unfold set_row. destruct (Z.eqb_spec i s), (Z.eqb_spec i r); subst; auto. }
  assert (E2 : f (set_row (set_row A r v) s u) = f (fun i j => A (tau r s i) j)).
  { apply (alt_ext n f F). intros i j I J. unfold set_row, tau. destruct (Z.eqb_spec i s), (Z.eqb_spec i r); subst; auto; try lia; congruence. }
  rewrite Z1, Z2, E1, E2 in E.
  assert (G : (f A + f (fun i j => A (tau r s i) j) = 0)%Qc) by (rewrite <- E; ring).
  rewrite <- (Qcplus_0_l (- f A)), <- G. ring.
Qed.

(* adding multiples of other rows to row r *)
Lemma alt_combine A r u a b (c : Z -> Qc) : 0 <= r < n -> 0 <= a -> b <= n -> ~ (a <= r < b) ->
  f (set_row A r (fun j => u j + qsum a b (fun l => c l * A l j))%Qc) = f (set_row A r u).
Proof.
  intros R A0 B N. rewrite (alt_plus n f F A r u (fun j => qsum a b (fun l => c l * A l j)%Qc)) by auto. rewrite alt_sum by auto.
  rewrite qsum_zero; [ring|]. intros l Hl. rewrite (alt_same n f F _ r l); auto; try lia; [ring|].
  intros j J. unfold set_row. rewrite Z.eqb_refl. destruct (Z.eqb_spec l r); [lia|auto].
Qed.

(* unit lower triangle times U *)
Lemma alt_lower (A U : fmat) (L : fmat) :
  (forall i j, 0 <= i < n -> 0 <= j < n -> A i j = (U i j + qsum 0 i (fun l => L i l * U l j))%Qc) -> f A = f U.
Proof.
  intros H.
  assert (G : forall c, (Z.of_nat c <= n) -> f (fun i j => if i <? n - Z.of_nat c then A i j else A i j) = f (fun i j => if i <? Z.of_nat c then U i j else A i j) /\ True).
  { intros c Hc. split; auto. induction c as [|c IH].
    - apply (alt_ext n f F). intros i j I J. destruct (Z.ltb_spec i (Z.of_nat 0)), (i <? n - Z.of_nat 0); auto; lia.
    - transitivity (f A); [apply (alt_ext n f F); intros i j I J; now destruct (i <? _)|].
      transitivity (f (fun i j => if i <? Z.of_nat c then U i j else A i j)).
      { rewrite <- IH by lia. apply (alt_ext n f F). intros i j I J. now destruct (i <? _). }
      set (t := Z.of_nat c). assert (T : 0 <= t < n) by lia.
      set (B := fun i j => if i <? t then U i j else A i j).
      transitivity (f (set_row B t (fun j => U t j + qsum 0 t (fun l => L t l * B l j))%Qc)).
      + apply (alt_ext n f F). intros i j I J. unfold set_row. destruct (Z.eqb_spec i t) as [->|].
        * unfold B at 1. rewrite Z.ltb_irrefl, H by auto. f_equal. apply qsum_ext. intros l Hl. unfold B. destruct (Z.ltb_spec l t); [auto|lia].
        * reflexivity.
      + rewrite alt_combine by (auto; lia). apply (alt_ext n f F). intros i j I J. unfold set_row, B.
        destruct (Z.eqb_spec i t), (Z.ltb_spec i t), (Z.ltb_spec i (Z.of_nat (S c))); subst; auto; lia. }
  destruct (Z_lt_le_dec n 0).
  - apply (alt_ext n f F). intros i j I. lia.
  - destruct (G (Z.to_nat n)) as [G1 _]; [lia|].
    transitivity (f (fun i j => if i <? n - Z.of_nat (Z.to_nat n) then A i j else A i j)).
    + apply (alt_ext n f F). intros i j I J. now destruct (i <? _).
    + rewrite G1. apply (alt_ext n f F). intros i j I J. destruct (Z.ltb_spec i (Z.of_nat (Z.to_nat n))); auto. lia.
Qed.

(* an upper triangle *)
Fixpoint diag_prod (U : fmat) (c : nat) : Qc := match c with O => 1%Qc | S c => (U (Z.of_nat c) (Z.of_nat c) * diag_prod U c)%Qc end.
Lemma alt_upper U : (forall i j, 0 <= j < i -> i < n -> U i j = 0%Qc) -> 0 <= n -> f U = (diag_prod U (Z.to_nat n) * f ident)%Qc.
Proof.
  intros H N.
  assert (G : forall c, Z.of_nat c <= n -> f (fun i j => if i <? Z.of_nat c then U i j else ident i j) = (diag_prod U c * f ident)%Qc).
  { induction c as [|c IH]; intros Hc.
    - cbn [diag_prod]. rewrite Qcmult_1_l. apply (alt_ext n f F). intros i j I J. destruct (Z.ltb_spec i (Z.of_nat 0)); [lia|auto].
    - cbn [diag_prod]. rewrite <- Qcmult_assoc, <- IH by lia.
      set (t := Z.of_nat c). assert (T : 0 <= t < n) by lia.
      set (B := fun i j => if i <? t then U i j else ident i j).
      transitivity (f (set_row B t (fun j => U t t * ident t j + qsum (t + 1) n (fun l => U t l * B l j))%Qc)).
      + apply (alt_ext n f F). intros i j I J. unfold set_row. destruct (Z.eqb_spec i t) as [->|].
        * destruct (Z.ltb_spec t (Z.of_nat (S c))); [|lia].
          rewrite (qsum_ext (t + 1) n _ (fun l => U t l * ident l j)%Qc).
          2:{ intros l Hl. unfold B. destruct (Z.ltb_spec l t); [lia|auto]. }
          unfold ident. destruct (Z.eqb_spec t j) as [<-|].
          -- rewrite qsum_zero; [ring|]. intros l Hl. destruct (Z.eqb_spec l t); [lia|ring].
          -- destruct (Z_lt_le_dec j t).
             ++ rewrite (H t j) by lia. rewrite qsum_zero; [ring|]. intros k Hk. destruct (Z.eqb_spec k j); [lia|ring].
             ++ rewrite (qsum_one (t + 1) n j); [rewrite Z.eqb_refl; ring|lia|].
                intros k Hk NE. destruct (Z.eqb_spec k j); [lia|ring].
        * unfold B. destruct (Z.ltb_spec i t), (Z.ltb_spec i (Z.of_nat (S c))); auto; lia.
      + rewrite alt_combine by (auto; lia). rewrite (alt_scale n f F) by auto. f_equal. apply (alt_ext n f F).
        intros i j I J. unfold set_row, B. destruct (Z.eqb_spec i t), (Z.ltb_spec i t); subst; auto; lia. }
  rewrite <- G by lia. apply (alt_ext n f F). intros i j I J. destruct (Z.ltb_spec i (Z.of_nat (Z.to_nat n))); auto. lia.
Qed.

(* a dependent row *)
Lemma alt_dependent A (y : Z -> Qc) s : 0 <= s < n -> y s = 1%Qc ->
  (forall j, 0 <= j < n -> qsum 0 n (fun i => y i * A i j)%Qc = 0%Qc) -> f A = 0%Qc.
Proof.
  intros S Y H.
  assert (E : forall u, f (set_row A s (fun j => u j + qsum 0 s (fun i => y i * A i j) + qsum (s + 1) n (fun i => y i * A i j))%Qc) = f (set_row A s u)).
  { intros u. rewrite (alt_combine A s (fun j => u j + qsum 0 s (fun i => y i * A i j))%Qc (s + 1) n y) by lia.
    now rewrite (alt_combine A s u 0 s y) by lia. }
  transitivity (f (set_row A s (A s))); [symmetry; apply (alt_ext n f F), set_row_same|].
  rewrite <- (E (A s)). rewrite <- (alt_zero_row A s) by auto. apply alt_row; auto. intros j J.
  pose proof (H j J) as Q. rewrite (qsum_app 0 s n), (qsum_cons s n), Y in Q by lia. rewrite <- Q. ring.
Qed.
End Alt.

Lemma reached_alt n f A p e : alternating n f -> reached n p e -> (f (fun i j => A (p i) j) = e * f A)%Qc.
Proof.
  intros F R. induction R as [p H|p q e a b R IH Ha Hb N H].
  - rewrite Qcmult_1_l. apply (alt_ext n f F). intros i j I J. now rewrite H.
  - transitivity (f (fun i j => (fun i j => A (p i) j) (tau a b i) j)).
    + apply (alt_ext n f F). intros i j I J. now rewrite H.
    + rewrite (alt_swap n f F (fun i j => A (p i) j)) by auto. rewrite IH. ring.
Qed.
Lemma reached_sign n p e : reached n p e -> (e * e = 1)%Qc.
Proof. induction 1; [ring|]. rewrite <- IHreached. ring. Qed.
