From Coq Require Import ZArith List Lia Bool QArith Qcanon Qcabs Field.
From Verif Require Import Lib.Base Lib.Img Lib.QSum BBox.Proofs Sky.Spec Sky.Algebra Sky.History MInv.Model MInv.Spec.
Import ListNotations.
Local Open Scope Z_scope.

Lemma mget_ok r c m i j : is_matrix r c m -> 0 <= i < r -> 0 <= j < c -> mget m i j = Ok (entry m i j).
Proof. intros [R C] I J. unfold mrows, mcols in *. unfold mget. rewrite get_in; [reflexivity|]. unfold inside. lia. Qed.
Lemma mset_ok r c m i j q : is_matrix r c m -> 0 <= i < r -> 0 <= j < c ->
  exists m', mset m i j q = Ok m' /\ is_matrix r c m' /\ forall i' j', entry m' i' j' = if (i' =? i) && (j' =? j) then q else entry m i' j'.
Proof.
  intros [R C] I J. unfold mrows, mcols in *. unfold mset.
  destruct (put_in m j i q) as (m' & E & C' & R' & P & O); [unfold inside; lia|].
  exists m'. split; [auto|]. split; [split; unfold mrows, mcols; lia|]. intros i' j'. unfold entry.
  destruct (Z.eqb_spec i' i) as [->|N], (Z.eqb_spec j' j) as [->|N']; cbn [andb]; auto.
Qed.
Lemma is_zero_iff q : is_zero q = true <-> q = 0%Qc.
Proof. unfold is_zero. destruct (Qc_eq_dec q 0%Qc); split; auto; discriminate. Qed.
Lemma is_zero_not q : is_zero q = false <-> q <> 0%Qc.
Proof. unfold is_zero. destruct (Qc_eq_dec q 0%Qc); split; auto; try discriminate. tauto. Qed.
Lemma qless_iff a b : qless a b = true <-> (a < b)%Qc.
Proof. unfold qless. rewrite Qclt_alt. destruct (a ?= b)%Qc; split; auto; discriminate. Qed.
Lemma qless_not a b : qless a b = false <-> (b <= a)%Qc.
Proof.
  split; intros H.
  - apply Qcnot_lt_le. rewrite <- qless_iff. congruence.
  - destruct (qless a b) eqn:E; auto. apply qless_iff in E. exfalso. now apply Qcle_not_lt in H.
Qed.

Lemma Qcabs_zero_le q : (Qcabs q <= 0)%Qc -> q = 0%Qc.
Proof.
  intros H. apply Qcabs_null. apply Qcle_antisym; auto. apply Qcabs_nonneg.
Qed.

Lemma pivot_found r c m col r0 n : is_matrix r c m -> 0 <= col < c -> 0 <= r0 -> r0 + n <= r -> 0 < n ->
  exists k, index_norm_inf m col r0 n = Ok k /\ 0 <= k < n /\
    forall i, 0 <= i < n -> (Qcabs (entry m (r0 + i) col) <= Qcabs (entry m (r0 + k) col))%Qc.
Proof.
  intros M C R0 R N. unfold index_norm_inf.
  match goal with |- context [for_up 0 n ?f ?z] =>
    destruct (for_up_inv (fun i s => (i = 0 /\ s = z) \/ (0 <= snd s < i /\ fst s = Qcabs (entry m (r0 + snd s) col) /\
       forall i', 0 <= i' < i -> (Qcabs (entry m (r0 + i') col) <= fst s)%Qc)) f 0 n z) as ([mv k] & E & P) end; [lia|auto| |].
  - intros i [mv k] Hi P. rewrite (mget_ok r c) by (auto; lia). cbn [bind].
    eexists. split; [reflexivity|]. right. destruct (qless mv _) eqn:L; cbn [fst snd].
    + split; [lia|split; [auto|]]. intros i' Hi'. destruct (Z.eq_dec i' i) as [->|]; [apply Qcle_refl|].
      destruct P as [(-> & _)|(_ & _ & P)]; [lia|]. apply qless_iff in L. apply Qcle_trans with mv; [apply P; lia|now apply Qclt_le_weak].
    + apply qless_not in L. destruct P as [(-> & [= -> ->])|(B & F & P)].
      * exfalso. assert (G : (0 <= Q2Qc (-1))%Qc) by (eapply Qcle_trans; [apply Qcabs_nonneg|exact L]). now vm_compute in G.
      * cbn [fst snd] in *. split; [lia|split; [auto|]]. intros i' Hi'. destruct (Z.eq_dec i' i) as [->|]; auto. apply P. lia.
  - rewrite E. cbn [bind]. exists k. split; auto. destruct P as [(-> & _)|(B & F & P)]; [lia|].
    cbn [fst snd] in *. split; [auto|]. intros i Hi. rewrite <- F. auto.
Qed.

Definition tau (a b i : Z) : Z := if i =? a then b else if i =? b then a else i.
Lemma swap_rows_ok n m a b : is_matrix n n m -> 0 <= a < n -> 0 <= b < n ->
  exists m', swap_rows m a b = Ok m' /\ is_matrix n n m' /\ forall i j, 0 <= i < n -> 0 <= j < n -> entry m' i j = entry m (tau a b i) j.
Proof.
  intros M A B. unfold swap_rows. assert (Cm : mcols m = n) by apply M. rewrite Cm.
  match goal with |- context [for_up 0 n ?f []] =>
    destruct (for_up_inv (fun c l => l = map (entry m a) (zrange 0 c)) f 0 n []) as (buf & E & P) end; [lia|reflexivity| |].
  { intros c l Hc ->. rewrite (mget_ok n n) by auto. cbn [bind]. eexists. split; [reflexivity|].
    rewrite (zrange_app 0 c (c + 1)), map_app by lia. rewrite (zrange_cons c (c + 1)), (zrange_nil (c + 1)) by lia. reflexivity. }
  rewrite E. cbn [bind]. clear E.
  match goal with |- context [bind (for_up 0 n ?f m) _] =>
    destruct (for_up_inv (fun c t => is_matrix n n t /\ forall i j, entry t i j = if (i =? a) && (0 <=? j) && (j <? c) then entry m b j else entry m i j)
      f 0 n m) as (m1 & E & M1 & P1) end; [lia| | |].
  { split; auto. intros. replace ((0 <=? j) && (j <? 0)) with false; [now rewrite <- andb_assoc; destruct (i =? a); destruct (0 <=? j) eqn:?, (j <? 0) eqn:?; b2p; try lia|].
    symmetry. destruct (0 <=? j) eqn:?, (j <? 0) eqn:?; b2p; auto; lia. }
  { intros c t Hc (Mt & Pt). rewrite (mget_ok n n) by auto. cbn [bind].
    destruct (mset_ok n n t a c (entry t b c) Mt A Hc) as (t' & Et & Mt' & Pt'). exists t'. split; auto. split; auto.
    intros i j. rewrite Pt', !Pt.
    destruct (Z.eqb_spec i a), (Z.eqb_spec j c), (Z.eqb_spec b a), (Z.leb_spec 0 j), (Z.ltb_spec j c), (Z.ltb_spec j (c + 1)), (Z.leb_spec 0 c), (Z.ltb_spec c c);
      cbn [andb]; subst; try lia; auto. }
  rewrite E. cbn [bind]. clear E. assert (Cm1 : mcols m1 = n) by apply M1. rewrite Cm1.
  match goal with |- context [for_up 0 n ?f m1] =>
    destruct (for_up_inv (fun c t => is_matrix n n t /\ forall i j, entry t i j = if (i =? b) && (0 <=? j) && (j <? c) then entry m a j else entry m1 i j)
      f 0 n m1) as (m2 & E & M2 & P2) end; [lia| | |].
  { split; auto. intros. destruct (i =? b), (Z.leb_spec 0 j), (Z.ltb_spec j 0); cbn [andb]; auto; lia. }
  { intros c t Hc (Mt & Pt).
    destruct (mset_ok n n t b c (nth (Z.to_nat c) buf 0%Qc) Mt B Hc) as (t' & Et & Mt' & Pt'). exists t'. split; auto. split; auto.
    intros i j. rewrite Pt', !Pt. subst buf.
    assert (G : nth (Z.to_nat c) (map (entry m a) (zrange 0 n)) 0%Qc = entry m a c).
    { erewrite nth_indep by (rewrite map_length, zrange_length; lia). rewrite map_nth. f_equal. unfold zrange. rewrite zseq_nth by lia. lia.
      Unshelve. exact 0. }
    rewrite G.
    destruct (Z.eqb_spec i b), (Z.eqb_spec j c), (Z.leb_spec 0 j), (Z.ltb_spec j c), (Z.ltb_spec j (c + 1));
      cbn [andb]; subst; try lia; auto. }
  exists m2. split; auto. split; auto. intros i j I J. rewrite P2, P1. unfold tau.
  destruct (Z.eqb_spec i a), (Z.eqb_spec i b), (Z.leb_spec 0 j), (Z.ltb_spec j n); cbn [andb]; subst; try lia; auto.
Qed.

Lemma swap_perm_ok n p a b : isvec n p -> 0 <= a < n -> 0 <= b < n ->
  exists p', swap_perm p a b = Ok p' /\ isvec n p' /\ forall i, vat p' i = vat p (tau a b i).
Proof.
  intros [C R] A B. unfold swap_perm. rewrite !get_in by (unfold inside; lia). cbn [bind].
  destruct (put_in p a 0 (pix p b 0)) as (p1 & -> & C1 & R1 & V1 & O1); [unfold inside; lia|]. cbn [bind].
  destruct (put_in p1 b 0 (pix p a 0)) as (p2 & E & C2 & R2 & V2 & O2); [unfold inside; lia|].
  exists p2. split; [auto|]. split; [split; lia|]. intros i. unfold vat, tau.
  destruct (Z.eqb_spec i a) as [E1|N], (Z.eqb_spec i b) as [E2|N']; subst.
  - now rewrite V2.
  - rewrite O2 by auto. auto.
  - auto.
  - rewrite O2, O1 by auto. auto.
Qed.

Lemma scale_column_ok n m s : is_matrix n n m -> 0 <= s < n ->
  exists m', scale_column m s n = Ok m' /\ is_matrix n n m' /\ forall i j, 0 <= i < n -> 0 <= j < n ->
    entry m' i j = if (s <? i) && (j =? s) then (entry m i s / entry m s s)%Qc else entry m i j.
Proof.
  intros M S. unfold scale_column. rewrite (mget_ok n n) by auto. cbn [bind].
  match goal with |- context [for_up (s + 1) n ?f m] =>
    destruct (for_up_inv (fun r t => is_matrix n n t /\ forall i j, 0 <= i < n -> 0 <= j < n ->
       entry t i j = if (s <? i) && (i <? r) && (j =? s) then (entry m i s / entry m s s)%Qc else entry m i j)
      f (s + 1) n m) as (m' & E & M' & P) end; [lia| | |].
  - split; auto. intros i j _ _. destruct (Z.ltb_spec s i), (Z.ltb_spec i (s + 1)); cbn [andb]; auto; lia.
  - intros r t Hr (Mt & Pt). rewrite (mget_ok n n) by (auto; lia). cbn [bind].
    destruct (mset_ok n n t r s (entry t r s / entry m s s)%Qc Mt) as (t' & Et & Mt' & Pt'); [lia|lia|]. exists t'. split; auto. split; auto.
    intros i j I J. rewrite Pt', !Pt by (auto; lia).
    destruct (Z.eqb_spec i r), (Z.eqb_spec j s), (Z.ltb_spec s i), (Z.ltb_spec i r), (Z.ltb_spec i (r + 1)), (Z.ltb_spec s r), (Z.ltb_spec r r), (Z.eqb_spec s s);
      cbn [andb]; subst; try lia; auto.
  - exists m'. split; auto. split; auto. intros i j I J. rewrite P by auto.
    destruct (Z.ltb_spec i n); [|lia]. now rewrite andb_true_r.
Qed.

Lemma eliminate_ok n m s : is_matrix n n m -> 0 <= s < n ->
  exists m', eliminate m s n = Ok m' /\ is_matrix n n m' /\ forall i j, 0 <= i < n -> 0 <= j < n ->
    entry m' i j = if (s <? i) && (s <? j) then (entry m i j - entry m i s * entry m s j)%Qc else entry m i j.
Proof.
  intros M S. unfold eliminate.
  match goal with |- context [for_up (s + 1) n ?f m] =>
    destruct (for_up_inv (fun r t => is_matrix n n t /\ forall i j, 0 <= i < n -> 0 <= j < n ->
       entry t i j = if (s <? i) && (i <? r) && (s <? j) then (entry m i j - entry m i s * entry m s j)%Qc else entry m i j)
      f (s + 1) n m) as (m' & E & M' & P) end; [lia| | |].
  - split; auto. intros i j _ _. destruct (Z.ltb_spec s i), (Z.ltb_spec i (s + 1)); cbn [andb]; auto; lia.
  - intros r t Hr (Mt & Pt).
    match goal with |- context [for_up (s + 1) n ?f t] =>
      destruct (for_up_inv (fun c u => is_matrix n n u /\ forall i j, 0 <= i < n -> 0 <= j < n ->
         entry u i j = if (i =? r) && (s <? j) && (j <? c) then (entry m i j - entry m i s * entry m s j)%Qc else entry t i j)
        f (s + 1) n t) as (u & E & Mu & Pu) end; [lia| | |].
    + split; auto. intros i j _ _. destruct (i =? r), (Z.ltb_spec s j), (Z.ltb_spec j (s + 1)); cbn [andb]; auto; lia.
    + intros c u Hc (Mu & Pu). rewrite !(mget_ok n n) by (auto; lia). cbn [bind].
      match goal with |- context [mset u r c ?q] => destruct (mset_ok n n u r c q Mu) as (u' & Eu & Mu' & Pu'); [lia|lia|] end.
      exists u'. split; auto. split; auto. intros i j I J. rewrite Pu'.
      destruct (Z.eqb_spec i r) as [->|]; cbn [andb].
      * destruct (Z.eqb_spec j c) as [->|]; cbn [andb].
        -- rewrite !Pu, !Pt by (auto; lia).
           destruct (Z.ltb_spec s c), (Z.ltb_spec c c), (Z.ltb_spec c (c + 1)), (Z.ltb_spec s s), (Z.ltb_spec s r), (Z.ltb_spec r r), (Z.eqb_spec r r), (Z.eqb_spec s r);
             cbn [andb]; try lia; auto.
        -- rewrite Pu by (auto; lia). rewrite Z.eqb_refl. destruct (Z.ltb_spec s j), (Z.ltb_spec j c), (Z.ltb_spec j (c + 1)); cbn [andb]; try lia; auto.
      * rewrite Pu by (auto; lia). destruct (Z.eqb_spec i r); [lia|]. reflexivity.
    + exists u. split; auto. split; auto. intros i j I J. rewrite Pu, Pt by auto.
      destruct (Z.eqb_spec i r), (Z.ltb_spec s j), (Z.ltb_spec j n), (Z.ltb_spec s i), (Z.ltb_spec i r), (Z.ltb_spec i (r + 1)); cbn [andb]; subst; try lia; auto.
  - exists m'. split; auto. split; auto. intros i j I J. rewrite P by auto.
    destruct (Z.ltb_spec i n); [|lia]. now rewrite andb_true_r.
Qed.

(** ** The decomposition *)
Definition upper (B : Z -> Z -> Qc) (l k : Z) : Qc := if l <=? k then B l k else 0%Qc.
Definition rest (s : Z) (B : Z -> Z -> Qc) (i k : Z) : Qc := if (s <=? i) && (s <=? k) then B i k else 0%Qc.
Definition decomposed (n s : Z) (A B : Z -> Z -> Qc) (p : Z -> Z) : Prop :=
  (forall i k, 0 <= i < n -> 0 <= k < n -> A (p i) k = (qsum 0 s (fun l => unit_lower B i l * upper B l k) + rest s B i k)%Qc) /\
  forall l, 0 <= l < s -> B l l <> 0%Qc.

Lemma tau_fix a b i : i <> a -> i <> b -> tau a b i = i.
Proof. intros. unfold tau. destruct (Z.eqb_spec i a), (Z.eqb_spec i b); lia. Qed.
Lemma tau_ge s p i : s <= p -> s <= i -> s <= tau s p i.
Proof. intros. unfold tau. destruct (i =? s), (i =? p); lia. Qed.
Lemma tau_in n a b i : 0 <= a < n -> 0 <= b < n -> 0 <= i < n -> 0 <= tau a b i < n.
Proof. intros. unfold tau. destruct (i =? a), (i =? b); lia. Qed.

(* permutations reached by exchanges, with their sign *)
Inductive reached (n : Z) : (Z -> Z) -> Qc -> Prop :=
| reached_id : forall p, (forall i, 0 <= i < n -> p i = i) -> reached n p 1%Qc
| reached_tau : forall p q e a b, reached n p e -> 0 <= a < n -> 0 <= b < n -> a <> b -> (forall i, 0 <= i < n -> q i = p (tau a b i)) -> reached n q (- e)%Qc.

Lemma decomposed_swap n s p A B B1 pm : 0 <= s < n -> s <= p < n -> decomposed n s A B pm ->
  (forall i j, 0 <= i < n -> 0 <= j < n -> B1 i j = B (tau s p i) j) ->
  decomposed n s A B1 (fun i => pm (tau s p i)).
Proof.
  intros S P [D N] H. split.
  - intros i k I K. pose proof (tau_in n s p i S ltac:(lia) I) as TI. rewrite D by auto. f_equal.
    + apply qsum_ext. intros l Hl. f_equal.
      * destruct (Z_lt_le_dec i s).
        -- rewrite tau_fix by lia. unfold unit_lower. destruct (l <? i); auto. rewrite H, tau_fix by lia. auto.
        -- pose proof (tau_ge s p i ltac:(lia) ltac:(lia)). rewrite !unit_lt by lia. rewrite H by lia. auto.
      * unfold upper. destruct (l <=? k); auto. rewrite H, tau_fix by lia. auto.
    + unfold rest. rewrite H by auto. destruct (Z_lt_le_dec i s).
      * rewrite tau_fix by lia. auto.
      * pose proof (tau_ge s p i ltac:(lia) ltac:(lia)). destruct (Z.leb_spec s i), (Z.leb_spec s (tau s p i)); cbn [andb]; try lia; auto.
  - intros l Hl. rewrite H, tau_fix by lia. auto.
Qed.

Lemma decomposed_step n s A B B2 pm : 0 <= s < n -> decomposed n s A B pm -> B s s <> 0%Qc ->
  (forall i j, 0 <= i < n -> 0 <= j < n -> B2 i j =
     if (s <? i) && (s <=? j) then if j =? s then (B i s / B s s)%Qc else (B i j - B i s / B s s * B s j)%Qc else B i j) ->
  decomposed n (s + 1) A B2 pm.
Proof.
  intros S [D N] Z0 H. split.
  - intros i k I K. rewrite D by auto. rewrite qsum_snoc by lia. rewrite <- Qcplus_assoc. f_equal.
    + apply qsum_ext. intros l Hl. f_equal.
      * unfold unit_lower. destruct (Z.ltb_spec l i); auto. rewrite H by lia.
        destruct (Z.leb_spec s l); [lia|]. now rewrite andb_false_r.
      * unfold upper. destruct (Z.leb_spec l k); auto. rewrite H by lia. destruct (Z.ltb_spec s l); [lia|]. auto.
    + unfold rest, upper, unit_lower. rewrite !H by lia.
      destruct (Z.ltb_spec s s); [lia|]. cbn [andb].
      destruct (Z.leb_spec s i), (Z.leb_spec s k), (Z.ltb_spec s i), (Z.leb_spec (s + 1) i), (Z.leb_spec (s + 1) k), (Z.eqb_spec s i), (Z.eqb_spec k s), (Z.leb_spec s s), (Z.eqb_spec s s);
        cbn [andb]; subst; try lia; try ring; try (field; auto).
  - intros l Hl. rewrite H by lia. destruct (Z.ltb_spec s l); [lia|]. cbn [andb]. destruct (Z.eq_dec l s) as [->|]; auto. apply N. lia.
Qed.

(* a column without pivot gives a vector in the kernel *)
Lemma upper_solve (B : Z -> Z -> Qc) s (b : Z -> Qc) : 0 <= s -> (forall l, 0 <= l < s -> B l l <> 0%Qc) ->
  exists z, forall l, 0 <= l < s -> (qsum 0 s (fun k => upper B l k * z k)%Qc = b l).
Proof.
  intros S N.
  assert (H : forall c, (Z.of_nat c <= s) -> exists z, forall l, s - Z.of_nat c <= l < s -> qsum l s (fun k => B l k * z k)%Qc = b l).
  { induction c as [|c IH]; intros Hc.
    - exists (fun _ => 0%Qc). intros. lia.
    - destruct IH as (z & Hz); [lia|]. set (k0 := s - Z.of_nat (Datatypes.S c)).
      assert (W : exists w, (B k0 k0 * w + qsum (k0 + 1) s (fun k => B k0 k * z k) = b k0)%Qc).
      { exists ((b k0 - qsum (k0 + 1) s (fun k => B k0 k * z k)) / B k0 k0)%Qc. field. apply N. lia. }
      destruct W as (w & W). exists (fun k => if k =? k0 then w else z k).
      intros l Hl. destruct (Z.eq_dec l k0) as [->|].
      + rewrite qsum_cons by lia. rewrite Z.eqb_refl.
        rewrite (qsum_ext (k0 + 1) s _ (fun k => B k0 k * z k)%Qc); [exact W|].
        intros k Hk. destruct (Z.eqb_spec k k0); [lia|auto].
      + rewrite <- (Hz l) by lia. apply qsum_ext. intros k Hk. destruct (Z.eqb_spec k k0); [lia|auto]. }
  destruct (H (Z.to_nat s)) as (z & Hz); [lia|]. exists z. intros l Hl.
  rewrite (qsum_app 0 l s) by lia. rewrite (qsum_zero 0 l).
  - rewrite Qcplus_0_l, <- (Hz l) by lia. apply qsum_ext. intros k Hk. unfold upper. destruct (Z.leb_spec l k); [auto|lia].
  - intros k Hk. unfold upper. destruct (Z.leb_spec l k); [lia|ring].
Qed.

Lemma no_pivot_kernel n s A B pm : 0 <= s < n -> permutes n pm -> decomposed n s A B pm ->
  (forall i, s <= i < n -> B i s = 0%Qc) -> exists x, x s = 1%Qc /\ solves n A x (fun _ => 0%Qc).
Proof.
  intros S P [D N] Z0.
  destruct (upper_solve B s (fun l => - B l s)%Qc) as (z & Hz); [lia|auto|].
  exists (fun k => if k <? s then z k else if k =? s then 1%Qc else 0%Qc).
  split; [now rewrite Z.ltb_irrefl, Z.eqb_refl|].
  assert (G : forall i, 0 <= i < n -> times n A (fun k => if k <? s then z k else if k =? s then 1%Qc else 0%Qc) (pm i) = 0%Qc).
  { intros i I. unfold times.
    rewrite (qsum_app 0 s n), (qsum_cons s n) by lia. rewrite (qsum_zero (s + 1) n).
    2:{ intros k Hk. destruct (Z.ltb_spec k s), (Z.eqb_spec k s); try lia. ring. }
    rewrite Z.ltb_irrefl, Z.eqb_refl.
    rewrite (qsum_ext 0 s _ (fun k => qsum 0 s (fun l => unit_lower B i l * (upper B l k * z k)))%Qc).
    2:{ intros k Hk. destruct (Z.ltb_spec k s); [|lia]. rewrite D by lia. unfold rest. destruct (Z.leb_spec s k); [lia|].
        rewrite andb_false_r. rewrite Qcplus_0_r. rewrite <- qsum_mul_r. apply qsum_ext. intros. ring. }
    rewrite qsum_swap.
    rewrite (qsum_ext 0 s _ (fun l => unit_lower B i l * - B l s)%Qc).
    2:{ intros l Hl. rewrite qsum_mul_l. rewrite Hz by lia. reflexivity. }
    rewrite D by lia. unfold rest. rewrite Z.leb_refl, andb_true_r.
    assert (R0 : (if s <=? i then B i s else 0%Qc) = 0%Qc) by (destruct (Z.leb_spec s i); auto; apply Z0; lia).
    rewrite R0.
    rewrite (qsum_ext 0 s (fun l => unit_lower B i l * upper B l s)%Qc (fun l => unit_lower B i l * B l s)%Qc).
    2:{ intros l Hl. unfold upper. destruct (Z.leb_spec l s); [auto|lia]. }
    rewrite (qsum_ext 0 s _ (fun l => (- (1)) * (unit_lower B i l * B l s))%Qc) by (intros; ring).
    rewrite qsum_mul_l. ring. }
  intros r Hr.
  destruct (permutes_onto n pm P r Hr) as (i & I & <-). auto.
Qed.
