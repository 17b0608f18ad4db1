From Coq Require Import ZArith List Lia Bool QArith Qcanon Qcabs Field.
From Verif Require Import Lib.Base Lib.Img Lib.QSum BBox.Proofs Sky.Spec Sky.Algebra Sky.History MInv.Model MInv.Spec MInv.Proofs.
Import ListNotations.
Local Open Scope Z_scope.

Definition lu_state (n s : Z) (A : Z -> Z -> Qc) (st : matrix * perm) : Prop :=
  is_matrix n n (fst st) /\ isvec n (snd st) /\ permutes n (vat (snd st)) /\ decomposed n s A (entry (fst st)) (vat (snd st)) /\
  exists e, reached n (vat (snd st)) e.

Lemma permutes_tau n a b p : 0 <= a < n -> 0 <= b < n -> permutes n p -> permutes n (fun i => p (tau a b i)).
Proof.
  intros A B [R I]. split.
  - intros i Hi. apply R. now apply tau_in.
  - intros i j Hi Hj E. apply I in E; try (apply tau_in; auto). unfold tau in E.
    destruct (Z.eqb_spec i a), (Z.eqb_spec i b), (Z.eqb_spec j a), (Z.eqb_spec j b); lia.
Qed.

Lemma lu_step_ok n s A st : 0 <= s < n -> lu_state n s A st ->
  (exists st', lu_step n s st = Ok st' /\ lu_state n (s + 1) A st') \/
  (lu_step n s st = Throw OtherErr /\ exists x, x s = 1%Qc /\ solves n A x (fun _ => 0%Qc)).
Proof.
  intros S (M & V & P & D & e0 & Re). destruct st as [buf pm]. cbn [fst snd] in *. unfold lu_step.
  destruct (pivot_found n n buf s s (n - s) M) as (k & -> & K & Max); try lia. cbn [bind]. cbn zeta.
  rewrite (mget_ok n n) by (auto; lia). cbn [bind].
  destruct (is_zero (entry buf (s + k) s)) eqn:Z0.
  - right. split; auto. apply is_zero_iff in Z0. apply (no_pivot_kernel n s A (entry buf) (vat pm)); auto.
    intros i Hi. specialize (Max (i - s) ltac:(lia)). rewrite Z0 in Max. replace (s + (i - s)) with i in Max by lia.
    apply Qcabs_zero_le. exact Max.
  - left. apply is_zero_not in Z0.
    assert (G : exists buf1 pm1, (if s + k =? s then Ok (buf, pm) else pm <- swap_perm pm s (s + k) ;; buf <- swap_rows buf s (s + k) ;; Ok (buf, pm)) = Ok (buf1, pm1) /\
       is_matrix n n buf1 /\ isvec n pm1 /\ permutes n (vat pm1) /\ decomposed n s A (entry buf1) (vat pm1) /\ (exists e, reached n (vat pm1) e) /\ entry buf1 s s <> 0%Qc).
    { destruct (Z.eqb_spec (s + k) s) as [E|E].
      - exists buf, pm. rewrite E in Z0. split; auto. split; auto. split; auto. split; auto. split; auto. split; eauto.
      - destruct (swap_perm_ok n pm s (s + k) V) as (pm1 & -> & V1 & P1); try lia. cbn [bind].
        destruct (swap_rows_ok n buf s (s + k) M) as (buf1 & -> & M1 & Q1); try lia. cbn [bind].
        exists buf1, pm1. split; auto. split; auto. split; auto.
        assert (EP : forall i, vat pm1 i = vat pm (tau s (s + k) i)) by auto. split; [|split; [|split]].
        + destruct (permutes_tau n s (s + k) (vat pm)) as [R I]; auto; try lia. split.
          * intros i Hi. rewrite EP. now apply R.
          * intros i j Hi Hj. rewrite !EP. now apply I.
        + destruct (decomposed_swap n s (s + k) A (entry buf) (entry buf1) (vat pm)) as [D1 D2]; auto; try lia.
          split; auto. intros i j Hi Hj. rewrite EP. now apply D1.
        + exists (- e0)%Qc. apply (reached_tau n (vat pm) (vat pm1) e0 s (s + k)); auto; lia.
        + rewrite Q1 by lia. unfold tau. rewrite Z.eqb_refl. auto. }
    destruct G as (buf1 & pm1 & -> & M1 & V1 & P1 & D1 & R1 & N1). cbn [bind].
    destruct (Z.eqb_spec s (n - 1)) as [E|E].
    + eexists. split; [reflexivity|]. split; [auto|split; [auto|split; [auto|split; [|exact R1]]]]. cbn [fst snd].
      apply (decomposed_step n s A (entry buf1)); auto. intros i j Hi Hj. destruct (Z.ltb_spec s i); [lia|auto].
    + destruct (scale_column_ok n buf1 s M1 S) as (buf2 & -> & M2 & Q2). cbn [bind].
      destruct (eliminate_ok n buf2 s M2 S) as (buf3 & -> & M3 & Q3). cbn [bind].
      eexists. split; [reflexivity|]. split; [auto|split; [auto|split; [auto|split; [|exact R1]]]]. cbn [fst snd].
      apply (decomposed_step n s A (entry buf1)); auto. intros i j Hi Hj. rewrite Q3, !Q2 by (auto; lia).
      rewrite Z.ltb_irrefl.
      destruct (Z.ltb_spec s i), (Z.ltb_spec s j), (Z.leb_spec s j), (Z.eqb_spec j s), (Z.eqb_spec s s); cbn [andb]; subst; try lia; auto.
Qed.

Lemma lu_ok n m : 0 <= n -> is_matrix n n m ->
  (exists st, lu m = Ok st /\ lu_state n n (entry m) st) \/
  (lu m = Throw OtherErr /\ exists x s, 0 <= s < n /\ x s = 1%Qc /\ solves n (entry m) x (fun _ => 0%Qc)).
Proof.
  intros N M. unfold lu. destruct M as [Mr Mc]. rewrite Mc. cbn zeta.
  assert (G : forall c s st, s + Z.of_nat c = n -> 0 <= s -> lu_state n s (entry m) st ->
    (exists st', loop c s (lu_step n) st = Ok st' /\ lu_state n n (entry m) st') \/
    (loop c s (lu_step n) st = Throw OtherErr /\ exists x s, 0 <= s < n /\ x s = 1%Qc /\ solves n (entry m) x (fun _ => 0%Qc))).
  { induction c as [|c IH]; intros s st E S L.
    - left. exists st. split; auto. replace n with s by lia. replace s with n in L by lia. replace s with n by lia. auto.
    - cbn [loop]. destruct (lu_step_ok n s (entry m) st) as [(st' & -> & L')|(-> & x & X1 & X2)]; auto; try lia.
      + cbn [bind]. apply IH; auto; lia.
      + right. split; auto. exists x, s. split; auto. lia. }
  unfold for_up. apply G; try lia. split; [split; auto|split; [split; reflexivity|split]].
  - split; cbn; auto.
  - split; [split|].
    + intros i k I K. cbn [fst snd]. unfold vat. cbn [pix]. rewrite qsum_nil by lia. unfold rest.
      destruct (Z.leb_spec 0 i), (Z.leb_spec 0 k); try lia. cbn [andb]. ring.
    + intros. lia.
    + exists 1%Qc. apply reached_id. reflexivity.
Qed.

Lemma permuted_identity_ok n p : 0 <= n -> isvec n p -> permutes n (vat p) ->
  exists m, permuted_identity p n = Ok m /\ is_matrix n n m /\ forall i j, 0 <= i < n -> 0 <= j < n -> entry m i j = ident (vat p i) j.
Proof.
  intros N [C R] [PR PI]. unfold permuted_identity.
  match goal with |- context [for_up 0 n ?f ?z] =>
    destruct (for_up_inv (fun c t => is_matrix n n t /\ forall i j, 0 <= i < n -> 0 <= j < n -> entry t i j = if i <? c then ident (vat p i) j else 0%Qc)
      f 0 n z) as (m & E & M & P) end; [lia| | |].
  - split; [split; reflexivity|]. intros i j I J. destruct (Z.ltb_spec i 0); [lia|reflexivity].
  - intros c t Hc (Mt & Pt). rewrite get_in by (unfold inside; lia). cbn [bind].
    destruct (mset_ok n n t c (vat p c) 1%Qc Mt Hc (PR c Hc)) as (t' & Et & Mt' & Pt'). exists t'. split; [exact Et|]. split; auto.
    intros i j I J. rewrite Pt', Pt by auto. unfold ident.
    destruct (Z.eqb_spec i c), (Z.eqb_spec j (vat p c)), (Z.ltb_spec i c), (Z.ltb_spec i (c + 1)), (Z.eqb_spec (vat p i) j); cbn [andb]; subst; try lia; auto; congruence.
  - exists m. split; auto. split; auto. intros i j I J. rewrite P by auto. destruct (Z.ltb_spec i n); [auto|lia].
Qed.

(* the inner loops: subtracting a multiple of one row from the others, one column at a time *)
Lemma col_update n inv j a b (f : Z -> Qc) buf i t : is_matrix n n inv -> is_matrix n n buf -> 0 <= i < n -> 0 <= j < n -> 0 <= a <= b -> b <= n ->
  (forall k, a <= k < b -> f k = entry buf k i) ->
  exists inv', for_up a b (fun k inv => q <- mget inv k j ;; c <- mget buf k i ;; mset inv k j (q - c * t)%Qc) inv = Ok inv' /\ is_matrix n n inv' /\
    forall k j', 0 <= k < n -> 0 <= j' < n -> entry inv' k j' = if (a <=? k) && (k <? b) && (j' =? j) then (entry inv k j - f k * t)%Qc else entry inv k j'.
Proof.
  intros M MB I J A B F.
  match goal with |- context [for_up a b ?g inv] =>
    destruct (for_up_inv (fun c u => is_matrix n n u /\ forall k j', 0 <= k < n -> 0 <= j' < n ->
      entry u k j' = if (a <=? k) && (k <? c) && (j' =? j) then (entry inv k j - f k * t)%Qc else entry inv k j') g a b inv) as (u & E & Mu & Pu) end; [lia| | |].
  - split; auto. intros k j' K J'. destruct (Z.leb_spec a k), (Z.ltb_spec k a); cbn [andb]; auto; lia.
  - intros c u Hc (Mu & Pu). rewrite !(mget_ok n n) by (auto; lia). cbn [bind].
    match goal with |- context [mset u c j ?q] => destruct (mset_ok n n u c j q Mu) as (u' & Eu & Mu' & Pu'); [lia|lia|] end.
    exists u'. split; auto. split; auto. intros k j' K J'. rewrite Pu', !Pu by (auto; lia).
    destruct (Z.eqb_spec k c), (Z.eqb_spec j' j), (Z.leb_spec a k), (Z.ltb_spec k c), (Z.ltb_spec k (c + 1)), (Z.leb_spec a c), (Z.ltb_spec c c), (Z.eqb_spec j j);
      cbn [andb]; subst; try lia; auto. rewrite F by lia. auto.
  - exists u. auto.
Qed.

Lemma col_update_dn n inv j b (f : Z -> Qc) buf i t : is_matrix n n inv -> is_matrix n n buf -> 0 <= i < n -> 0 <= j < n -> 0 <= b <= n ->
  (forall k, 0 <= k < b -> f k = entry buf k i) ->
  exists inv', for_dn (b - 1) 0 (fun k inv => q <- mget inv k j ;; c <- mget buf k i ;; mset inv k j (q - c * t)%Qc) inv = Ok inv' /\ is_matrix n n inv' /\
    forall k j', 0 <= k < n -> 0 <= j' < n -> entry inv' k j' = if (k <? b) && (j' =? j) then (entry inv k j - f k * t)%Qc else entry inv k j'.
Proof.
  intros M MB I J B F.
  match goal with |- context [for_dn (b - 1) 0 ?g inv] =>
    destruct (for_dn_inv (fun c u => is_matrix n n u /\ forall k j', 0 <= k < n -> 0 <= j' < n ->
      entry u k j' = if (c <? k) && (k <? b) && (j' =? j) then (entry inv k j - f k * t)%Qc else entry inv k j') g (b - 1) 0 inv) as (u & E & Mu & Pu) end; [lia| | |].
  - split; auto. intros k j' K J'. destruct (Z.ltb_spec (b - 1) k), (Z.ltb_spec k b); cbn [andb]; auto; lia.
  - intros c u Hc (Mu & Pu). rewrite !(mget_ok n n) by (auto; lia). cbn [bind].
    match goal with |- context [mset u c j ?q] => destruct (mset_ok n n u c j q Mu) as (u' & Eu & Mu' & Pu'); [lia|lia|] end.
    exists u'. split; auto. split; auto. intros k j' K J'. rewrite Pu', !Pu by (auto; lia).
    destruct (Z.eqb_spec k c), (Z.eqb_spec j' j), (Z.ltb_spec c k), (Z.ltb_spec k b), (Z.ltb_spec (c - 1) k), (Z.ltb_spec c c), (Z.ltb_spec c b), (Z.eqb_spec j j);
      cbn [andb]; subst; try lia; auto. rewrite F by lia. auto.
  - exists u. split; auto. split; auto. intros k j' K J'. rewrite Pu by auto. destruct (Z.ltb_spec (0 - 1) k); [auto|lia].
Qed.

(* forward substitution *)
Lemma divide_lower_ok n buf inv : 0 <= n -> is_matrix n n buf -> is_matrix n n inv ->
  exists y, divide_lower buf inv n = Ok y /\ is_matrix n n y /\
    forall k j, 0 <= k < n -> 0 <= j < n -> entry inv k j = (entry y k j + qsum 0 k (fun l => entry buf k l * entry y l j))%Qc.
Proof.
  intros N MB MI. unfold divide_lower.
  match goal with |- context [for_up 0 n ?g inv] =>
    destruct (for_up_inv (fun i u => is_matrix n n u /\ forall k j, 0 <= k < n -> 0 <= j < n ->
      entry inv k j = (entry u k j + qsum 0 (Z.min i k) (fun l => entry buf k l * entry u l j))%Qc) g 0 n inv) as (y & E & My & Py) end; [lia| | |].
  - split; auto. intros k j K J. rewrite qsum_nil by lia. ring.
  - intros i u Hi (Mu & Pu).
    match goal with |- context [for_up 0 n ?g u] =>
      destruct (for_up_inv (fun c v => is_matrix n n v /\ forall k j, 0 <= k < n -> 0 <= j < n ->
        entry v k j = if (i <? k) && (j <? c) then (entry u k j - entry buf k i * entry u i j)%Qc else entry u k j) g 0 n u) as (v & E & Mv & Pv) end; [lia| | |].
    + split; auto. intros k j K J. destruct (Z.ltb_spec j 0); [lia|]. now rewrite andb_false_r.
    + intros j v Hj (Mv & Pv). rewrite (mget_ok n n) by auto. cbn [bind].
      assert (Et : entry v i j = entry u i j) by (rewrite Pv by auto; rewrite Z.ltb_irrefl; reflexivity).
      assert (Es : forall k, i < k < n -> entry v k j = entry u k j).
      { intros k Hk. rewrite Pv by (auto; lia). rewrite Z.ltb_irrefl, andb_false_r. auto. }
      destruct (is_zero (entry v i j)) eqn:Z0.
      * exists v. split; auto. split; auto. intros k j' K J'. rewrite Pv by auto.
        destruct (Z.ltb_spec i k), (Z.ltb_spec j' j), (Z.ltb_spec j' (j + 1)); cbn [andb]; try lia; auto.
        assert (j' = j) by lia. subst. apply is_zero_iff in Z0. rewrite <- Et, Z0. ring.
      * destruct (col_update n v j (i + 1) n (fun k => entry buf k i) buf i (entry v i j)) as (v' & Ev & Mv' & Pv'); auto; try lia.
        exists v'. split; auto. split; auto. intros k j' K J'. rewrite Pv', Et, !Pv by auto.
        destruct (Z.leb_spec (i + 1) k), (Z.ltb_spec k n), (Z.eqb_spec j' j), (Z.ltb_spec i k), (Z.ltb_spec j' j), (Z.ltb_spec j' (j + 1)), (Z.ltb_spec j j); cbn [andb]; subst; try lia; auto.
    + exists v. split; auto. split; auto. intros k j K J. rewrite (Pu k j) by auto.
      assert (F : forall l, 0 <= l < Z.min (i + 1) k -> entry v l j = entry u l j).
      { intros l Hl. rewrite Pv by lia. destruct (Z.ltb_spec i l); [lia|auto]. }
      rewrite (qsum_ext 0 (Z.min (i + 1) k) _ (fun l => entry buf k l * entry u l j)%Qc) by (intros l Hl; now rewrite F).
      rewrite Pv by auto. destruct (Z.ltb_spec i k), (Z.ltb_spec j n); cbn [andb]; try lia.
      * replace (Z.min i k) with i by lia. replace (Z.min (i + 1) k) with (i + 1) by lia. rewrite qsum_snoc by lia. ring.
      * replace (Z.min i k) with k by lia. replace (Z.min (i + 1) k) with k by lia. ring.
  - exists y. split; auto. split; auto. intros k j K J. rewrite Py by auto. now replace (Z.min n k) with k by lia.
Qed.

(* back substitution *)
Lemma divide_upper_ok n buf inv : 0 <= n -> is_matrix n n buf -> is_matrix n n inv -> (forall l, 0 <= l < n -> entry buf l l <> 0%Qc) ->
  exists x, divide_upper buf inv n = Ok x /\ is_matrix n n x /\
    forall k j, 0 <= k < n -> 0 <= j < n -> entry inv k j = qsum k n (fun l => entry buf k l * entry x l j)%Qc.
Proof.
  intros N MB MI D. unfold divide_upper.
  (* rows above i are divided; the others hold what is left of the right hand side *)
  match goal with |- context [for_dn (n - 1) 0 ?g inv] =>
    destruct (for_dn_inv (fun i u => is_matrix n n u /\ forall k j, 0 <= k < n -> 0 <= j < n ->
      entry inv k j = if k <=? i then (entry u k j + qsum (i + 1) n (fun l => entry buf k l * entry u l j))%Qc
                      else qsum k n (fun l => entry buf k l * entry u l j)%Qc) g (n - 1) 0 inv) as (y & E & My & Py) end; [lia| | |].
  - split; auto. intros k j K J. destruct (Z.leb_spec k (n - 1)); [|lia]. rewrite qsum_nil by lia. ring.
  - intros i u Hi (Mu & Pu).
    match goal with |- context [for_dn (n - 1) 0 ?g u] =>
      destruct (for_dn_inv (fun c v => is_matrix n n v /\ forall k j, 0 <= k < n -> 0 <= j < n ->
        entry v k j = if (k <? i) && (c <? j) then (entry u k j - entry buf k i * (entry u i j / entry buf i i))%Qc
                      else if (k =? i) && (c <? j) then (entry u i j / entry buf i i)%Qc else entry u k j) g (n - 1) 0 u) as (v & E & Mv & Pv) end; [lia| | |].
    + split; auto. intros k j K J. destruct (Z.ltb_spec (n - 1) j); [lia|]. now rewrite !andb_false_r.
    + intros j v Hj (Mv & Pv). rewrite !(mget_ok n n) by (auto; lia). cbn [bind]. cbn zeta.
      assert (Et : entry v i j = entry u i j).
      { rewrite Pv by lia. rewrite (Z.ltb_irrefl j), !andb_false_r. auto. }
      destruct (mset_ok n n v i j (entry v i j / entry buf i i)%Qc Mv) as (w & -> & Mw & Pw); [lia|lia|]. cbn [bind].
      destruct (is_zero (entry v i j / entry buf i i)%Qc) eqn:Z0.
      * exists w. split; auto. split; auto. intros k j' K J'. rewrite Pw, Et, Pv by auto. rewrite Et in Z0. apply is_zero_iff in Z0.
        destruct (Z.eqb_spec k i), (Z.eqb_spec j' j), (Z.ltb_spec k i), (Z.ltb_spec j j'), (Z.ltb_spec (j - 1) j'); cbn [andb]; subst; try lia; auto.
        rewrite Z0. ring.
      * destruct (col_update_dn n w j i (fun k => entry buf k i) buf i (entry v i j / entry buf i i)%Qc) as (v' & Ev & Mv' & Pv'); auto; try lia.
        exists v'. split; auto. split; auto. intros k j' K J'. rewrite Pv', !Pw, Et, !Pv by (auto; lia).
        destruct (Z.eqb_spec k i), (Z.eqb_spec j' j), (Z.ltb_spec k i), (Z.ltb_spec j j'), (Z.ltb_spec (j - 1) j'), (Z.eqb_spec j j), (Z.ltb_spec j j); cbn [andb]; subst; try lia; auto.
    + exists v. split; auto. split; auto. intros k j K J. rewrite (Pu k j) by auto.
      assert (F : forall l, i < l < n -> entry v l j = entry u l j).
      { intros l Hl. rewrite Pv by lia. destruct (Z.ltb_spec l i), (Z.eqb_spec l i); try lia. auto. }
      assert (Fi : entry v i j = (entry u i j / entry buf i i)%Qc).
      { rewrite Pv by lia. rewrite Z.ltb_irrefl, Z.eqb_refl. destruct (Z.ltb_spec (0 - 1) j); [auto|lia]. }
      specialize (D i ltac:(lia)).
      destruct (Z.leb_spec k i), (Z.leb_spec k (i - 1)); try lia.
      * replace (i - 1 + 1) with i by lia. rewrite (qsum_cons i n) by lia. rewrite Fi.
        rewrite (qsum_ext (i + 1) n (fun l => entry buf k l * entry v l j)%Qc (fun l => entry buf k l * entry u l j)%Qc) by (intros l Hl; rewrite F by lia; auto).
        rewrite Pv by auto. destruct (Z.ltb_spec k i), (Z.ltb_spec (0 - 1) j); cbn [andb]; try lia. field; auto.
      * assert (k = i) by lia. subst k. rewrite (qsum_cons i n) by lia. rewrite Fi.
        rewrite (qsum_ext (i + 1) n (fun l => entry buf i l * entry v l j)%Qc (fun l => entry buf i l * entry u l j)%Qc) by (intros l Hl; rewrite F by lia; auto).
        field; auto.
      * apply qsum_ext. intros l Hl. rewrite F by lia. auto.
  - exists y. split; auto. split; auto. intros k j K J. rewrite Py by auto. destruct (Z.leb_spec k (0 - 1)); [lia|auto].
Qed.

(* a decomposed matrix applied to a vector *)
Lemma decomposed_times n A B pm x i : decomposed n n A B pm -> 0 <= i < n ->
  qsum 0 n (fun k => A (pm i) k * x k)%Qc = qsum 0 n (fun l => unit_lower B i l * qsum l n (fun k => B l k * x k))%Qc.
Proof.
  intros [D _] I.
  rewrite (qsum_ext 0 n _ (fun k => qsum 0 n (fun l => unit_lower B i l * (upper B l k * x k))%Qc)).
  - rewrite qsum_swap. apply qsum_ext. intros l Hl. rewrite qsum_mul_l. f_equal.
    rewrite (qsum_app 0 l n) by lia. rewrite (qsum_zero 0 l).
    + rewrite Qcplus_0_l. apply qsum_ext. intros k Hk. unfold upper. destruct (Z.leb_spec l k); [auto|lia].
    + intros k Hk. unfold upper. destruct (Z.leb_spec l k); [lia|ring].
  - intros k Hk. rewrite D by auto. unfold rest. destruct (Z.leb_spec n i); [lia|]. cbn [andb]. rewrite Qcplus_0_r, <- qsum_mul_r.
    apply qsum_ext. intros. ring.
Qed.

Lemma decomposed_regular n A B pm : decomposed n n A B pm -> permutes n pm -> regular n A.
Proof.
  intros D P x Sx.
  assert (G : forall i, 0 <= i < n -> qsum 0 n (fun l => unit_lower B i l * qsum l n (fun k => B l k * x k))%Qc = 0%Qc).
  { intros i I. rewrite <- (decomposed_times n A B pm x i D I). apply (Sx (pm i)). now apply P. }
  (* the lower triangle first *)
  assert (U : forall c, forall l, 0 <= l -> l < Z.of_nat c -> l < n -> qsum l n (fun k => B l k * x k)%Qc = 0%Qc).
  { induction c as [|c IH]; intros l L0 Lc Ln; [lia|]. pose proof (G l ltac:(lia)) as E.
    rewrite (unit_row n B (fun l => qsum l n (fun k => B l k * x k)%Qc)) in E by lia.
    rewrite (qsum_zero 0 l) in E; [now rewrite Qcplus_0_r in E|]. intros k Hk. rewrite IH by lia. ring. }
  assert (U' : forall l, 0 <= l < n -> qsum l n (fun k => B l k * x k)%Qc = 0%Qc) by (intros l Hl; apply (U (Z.to_nat n)); lia).
  (* then the upper one, from the end *)
  assert (X : forall c, forall l, n - Z.of_nat c <= l -> 0 <= l < n -> x l = 0%Qc).
  { induction c as [|c IH]; intros l Lc Ln; [lia|]. pose proof (U' l Ln) as E. rewrite qsum_cons in E by lia.
    rewrite (qsum_zero (l + 1) n) in E by (intros k Hk; rewrite IH by lia; ring). rewrite Qcplus_0_r in E.
    apply Qcmult_integral in E as [E|E]; auto. exfalso. revert E. apply D. lia. }
  intros i Hi. apply (X (Z.to_nat n)); lia.
Qed.

Lemma right_is_left n A X : regular n A -> product_is n A X ident -> product_is n X A ident.
Proof.
  intros R H i j I J.
  assert (S : solves n A (fun k => qsum 0 n (fun l => X k l * A l j) - ident k j)%Qc (fun _ => 0%Qc)).
  { intros r Hr. rewrite times_minus. unfold times.
    rewrite (qsum_ext 0 n _ (fun k => qsum 0 n (fun l => A r k * X k l * A l j)%Qc)).
    - rewrite qsum_swap. rewrite (qsum_ext 0 n _ (fun l => ident r l * A l j)%Qc).
      + rewrite (qsum_one 0 n r), (qsum_one 0 n j) by (auto; intros k Hk N; unfold ident; destruct (Z.eqb_spec r k), (Z.eqb_spec k j); try lia; ring).
        unfold ident. rewrite !Z.eqb_refl. ring.
      + intros l Hl. rewrite <- H by auto. rewrite <- qsum_mul_r. apply qsum_ext. auto.
    - intros k Hk. rewrite <- qsum_mul_l. apply qsum_ext. intros. ring. }
  pose proof (R _ S i I) as E. cbn beta in E. rewrite <- (Qcplus_0_r (ident i j)), <- E. ring.
Qed.

Lemma inverse_ok n m : 0 <= n -> is_matrix n n m ->
  (exists x, inverse m = Ok x /\ is_matrix n n x /\ regular n (entry m) /\ product_is n (entry m) (entry x) ident /\ product_is n (entry x) (entry m) ident) \/
  (inverse m = Throw OtherErr /\ exists x s, 0 <= s < n /\ x s = 1%Qc /\ solves n (entry m) x (fun _ => 0%Qc)).
Proof.
  intros N M. unfold inverse. cbn zeta. destruct (lu_ok n m N M) as [([buf pm] & -> & MB & V & P & D & _)|(-> & H)]; [|right; auto].
  cbn [bind fst snd] in *. left. assert (Mc : mcols m = n) by apply M. rewrite Mc.
  destruct (permuted_identity_ok n pm N V P) as (pi & -> & MP & PP). cbn [bind].
  destruct (divide_lower_ok n buf pi N MB MP) as (y & -> & MY & PY). cbn [bind].
  destruct (divide_upper_ok n buf y N MB MY) as (x & -> & MX & PX); [apply D|].
  exists x. split; auto. split; auto.
  assert (R : regular n (entry m)) by (apply (decomposed_regular n _ (entry buf) (vat pm)); auto).
  assert (H : product_is n (entry m) (entry x) ident).
  { intros r j Hr J. destruct (permutes_onto n (vat pm) P r Hr) as (i & I & <-).
    rewrite (decomposed_times n (entry m) (entry buf) (vat pm) (fun k => entry x k j) i D I).
    rewrite (qsum_ext 0 n _ (fun l => unit_lower (entry buf) i l * entry y l j)%Qc) by (intros l Hl; now rewrite PX).
    rewrite unit_row by auto. rewrite <- PY by auto. now apply PP. }
  split; auto. split; auto. now apply right_is_left.
Qed.
