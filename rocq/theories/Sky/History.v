From Coq Require Import ZArith List Lia Bool QArith Qcanon Field.
From Verif Require Import Lib.Base Lib.Img Lib.QSum Sky.Model Sky.Spec Sky.Algebra Sky.Proofs.
Import ListNotations.
Local Open Scope Z_scope.

Lemma same_entry_sym r c i j : same_entry r c i j = same_entry r c j i.
Proof. unfold same_entry. apply orb_comm. Qed.
Lemma entry_after_snoc h e i j : entry_after (h ++ [e]) i j =
  match e with Assign r c x => if same_entry r c i j then x else entry_after h i j | Look _ _ => entry_after h i j end.
Proof. unfold entry_after. rewrite fold_left_app. reflexivity. Qed.
Lemma entry_after_sym h i j : entry_after h i j = entry_after h j i.
Proof.
  induction h as [|e h IH] using rev_ind; [reflexivity|]. rewrite !entry_after_snoc.
  destruct e; auto. rewrite (same_entry_sym row col i j), IH. reflexivity.
Qed.

(* what a matrix holds after a history *)
Definition holds (n : Z) (h : list event) (a : mat) : Prop :=
  icols (cells a) = n /\ irows (cells a) = n /\ isvec n (sky a) /\
  (forall i j, 0 <= j <= i -> i < n -> pix (cells a) j i = entry_after h i j) /\
  (forall i, 0 <= i < n -> 0 <= vat (sky a) i <= i /\ (vat (sky a) i < i -> Exists (fun e => touches e i (vat (sky a) i)) h)
     /\ forall e j, In e h -> touches e i j -> 0 <= j <= i -> vat (sky a) i <= j).

Lemma holds_new n : 0 <= n -> holds n [] (new_mat n).
Proof.
  intros N. unfold new_mat. split; [reflexivity|split; [reflexivity|split; [split; reflexivity|split]]].
  - intros. reflexivity.
  - intros i Hi. unfold vat. cbn. repeat split; try lia.
Qed.

Lemma access_holds n h a r c : holds n h a -> 0 <= r < n -> 0 <= c < n ->
  exists a', access a r c = Ok (a', at_const r c) /\ cells a' = cells a /\ isvec n (sky a') /\
    (forall i, 0 <= i < n -> vat (sky a') i = if i =? fst (at_const r c) then Z.min (vat (sky a) i) (snd (at_const r c)) else vat (sky a) i).
Proof.
  intros (C & R & V & _ & Hs) Hr Hc. unfold access, at_const.
  destruct (c >? r) eqn:G; cbn [fst snd].
  - rewrite (vget_ok n) by auto. cbn [bind]. destruct (Z.ltb_spec r (vat (sky a) c)).
    + destruct (vset_ok n (sky a) c r V Hc) as (v & E & V' & X & O). rewrite E. cbn [bind].
      eexists. split; [reflexivity|]. cbn [cells sky]. split; [auto|split; [auto|]].
      intros i Hi. destruct (Z.eqb_spec i c) as [->|]; [rewrite X; lia|]. now apply O.
    + exists a. split; [reflexivity|]. split; [auto|split; [auto|]]. intros i Hi. destruct (Z.eqb_spec i c) as [->|]; lia.
  - rewrite (vget_ok n) by auto. cbn [bind]. destruct (Z.ltb_spec c (vat (sky a) r)).
    + destruct (vset_ok n (sky a) r c V Hr) as (v & E & V' & X & O). rewrite E. cbn [bind].
      eexists. split; [reflexivity|]. cbn [cells sky]. split; [auto|split; [auto|]].
      intros i Hi. destruct (Z.eqb_spec i r) as [->|]; [rewrite X; lia|]. now apply O.
    + exists a. split; [reflexivity|]. split; [auto|split; [auto|]]. intros i Hi. destruct (Z.eqb_spec i r) as [->|]; lia.
Qed.

Lemma at_const_cases r c : (at_const r c = (r, c) /\ c <= r) \/ (at_const r c = (c, r) /\ r < c).
Proof. unfold at_const. rewrite Z.gtb_ltb. destruct (Z.ltb_spec r c); [right|left]; auto. Qed.

(* the skyline part of an event *)
Lemma sky_step n h a sk e r c : holds n h a -> 0 <= r < n -> 0 <= c < n ->
  (forall i j, touches e i j <-> (r = i /\ c = j) \/ (r = j /\ c = i)) ->
  (forall i, 0 <= i < n -> vat sk i = if i =? fst (at_const r c) then Z.min (vat (sky a) i) (snd (at_const r c)) else vat (sky a) i) ->
  forall i, 0 <= i < n -> 0 <= vat sk i <= i /\ (vat sk i < i -> Exists (fun e => touches e i (vat sk i)) (h ++ [e]))
     /\ forall e' j, In e' (h ++ [e]) -> touches e' i j -> 0 <= j <= i -> vat sk i <= j.
Proof.
  intros (_ & _ & _ & _ & Hs) Hr Hc T E i Hi. rewrite (E i Hi). destruct (Hs i Hi) as (B & X & Lw).
  assert (Ax : forall s, s = vat (sky a) i -> s < i -> Exists (fun e => touches e i s) (h ++ [e])).
  { intros s -> L. apply Exists_app. left. auto. }
  assert (Al : forall e' j, In e' (h ++ [e]) -> touches e' i j -> 0 <= j <= i -> vat (sky a) i <= j \/ (touches e i j)).
  { intros e' j I0 Te J. apply in_app_or in I0. destruct I0 as [I0|[<-|[]]]; auto. left. eauto. }
  destruct (at_const_cases r c) as [(Ec & Lc)|(Ec & Lc)]; rewrite Ec; cbn [fst snd].
  - destruct (Z.eqb_spec i r) as [->|N].
    + split; [lia|]. split.
      * intros L. destruct (Z.le_gt_cases (vat (sky a) r) c).
        -- rewrite Z.min_l in * by lia. apply Ax; auto.
        -- rewrite Z.min_r in * by lia. apply Exists_app. right. constructor. apply T. auto.
      * intros e' j I0 Te J. destruct (Al e' j I0 Te J) as [|Te']; [lia|]. apply T in Te'. lia.
    + split; [lia|]. split; [apply Ax; auto|].
      intros e' j I0 Te J. destruct (Al e' j I0 Te J) as [|Te']; [lia|]. apply T in Te'. lia.
  - destruct (Z.eqb_spec i c) as [->|N].
    + split; [lia|]. split.
      * intros L. destruct (Z.le_gt_cases (vat (sky a) c) r).
        -- rewrite Z.min_l in * by lia. apply Ax; auto.
        -- rewrite Z.min_r in * by lia. apply Exists_app. right. constructor. apply T. auto.
      * intros e' j I0 Te J. destruct (Al e' j I0 Te J) as [|Te']; [lia|]. apply T in Te'. lia.
    + split; [lia|]. split; [apply Ax; auto|].
      intros e' j I0 Te J. destruct (Al e' j I0 Te J) as [|Te']; [lia|]. apply T in Te'. lia.
Qed.

Lemma event_holds n h a e : holds n h a -> event_in n e -> exists a', apply_event a e = Ok a' /\ holds n (h ++ [e]) a'.
Proof.
  intros H Ie. destruct e as [r c x|r c]; destruct Ie as (Hr & Hc);
    destruct (access_holds n h a r c H Hr Hc) as (a1 & E1 & C1 & V1 & S1).
  - unfold apply_event, write. cbn [vaccess]. rewrite E1. cbn [bind]. unfold store.
    pose proof H as (HC & HR & HV & HE & _).
    assert (B : 0 <= snd (at_const r c) < n /\ 0 <= fst (at_const r c) < n)
      by (destruct (at_const_cases r c) as [(-> & _)|(-> & _)]; cbn [fst snd]; lia).
    destruct (put_in (cells a1) (snd (at_const r c)) (fst (at_const r c)) x) as (m & Em & Cm & Rm & P & O).
    { unfold inside. rewrite C1, HC, HR. lia. }
    rewrite Em. cbn [bind]. eexists. split; [reflexivity|].
    split; [cbn [cells]; congruence|]. split; [cbn [cells]; congruence|]. split; [cbn [sky]; auto|]. split.
    + intros i j J I. cbn [cells]. rewrite entry_after_snoc.
      destruct (same_entry r c i j) eqn:Se.
      * unfold same_entry in Se. apply orb_true_iff in Se. rewrite !andb_true_iff, !Z.eqb_eq in Se.
        assert (Ea : at_const r c = (i, j)).
        { destruct (at_const_cases r c) as [(-> & L)|(-> & L)]; destruct Se as [(-> & ->)|(-> & ->)]; auto; [|lia].
          f_equal; lia. }
        rewrite Ea in P. cbn [fst snd] in P. exact P.
      * rewrite O, C1; [apply HE; auto|].
        destruct (Z.eq_dec j (snd (at_const r c))) as [e1|e1]; auto.
        destruct (Z.eq_dec i (fst (at_const r c))) as [e2|e2]; auto. exfalso.
        assert (same_entry r c i j = true); [|congruence]. unfold same_entry. apply orb_true_iff.
        rewrite !andb_true_iff, !Z.eqb_eq. destruct (at_const_cases r c) as [(Ea & L)|(Ea & L)]; rewrite Ea in *; cbn [fst snd] in *; lia.
    + apply (sky_step n h a (sky a1) (Assign r c x) r c); auto. intros. cbn [touches]. tauto.
  - unfold apply_event, read. cbn [vaccess]. rewrite E1. cbn [bind]. unfold deref.
    pose proof H as (HC & HR & HV & HE & _).
    rewrite get_in.
    + cbn [bind]. exists a1. split; [reflexivity|].
      split; [congruence|]. split; [congruence|]. split; [auto|]. split.
      * intros i j J I. rewrite C1, entry_after_snoc. apply HE; auto.
      * apply (sky_step n h a (sky a1) (Look r c) r c); auto. intros. cbn [touches]. tauto.
    + unfold inside. rewrite C1, HC, HR. destruct (at_const_cases r c) as [(-> & _)|(-> & _)]; cbn [fst snd]; lia.
Qed.

Lemma history_holds n h : 0 <= n -> Forall (event_in n) h -> exists a, apply_all (new_mat n) h = Ok a /\ holds n h a.
Proof.
  intros N. assert (G : forall h2 h1 a, holds n h1 a -> Forall (event_in n) h2 -> exists a', apply_all a h2 = Ok a' /\ holds n (h1 ++ h2) a').
  { induction h2 as [|e h2 IH]; intros h1 a H F.
    - exists a. rewrite app_nil_r. auto.
    - inversion F; subst. destruct (event_holds n h1 a e H) as (a1 & E & H'); auto. cbn [apply_all]. rewrite E. cbn [bind].
      destruct (IH (h1 ++ [e]) a1 H') as (a' & E' & H''); auto. exists a'. split; auto. now rewrite <- app_assoc in H''. }
  intros F. apply (G h [] (new_mat n)); auto. apply holds_new; auto.
Qed.

Lemma entry_untouched h i j : (forall e, In e h -> ~ touches e i j) -> entry_after h i j = 0%Qc.
Proof.
  induction h as [|e h IH] using rev_ind; intros T; [reflexivity|]. rewrite entry_after_snoc.
  assert (E : entry_after h i j = 0%Qc) by (apply IH; intros e' I0; apply T, in_or_app; auto).
  destruct e as [r c x|]; auto. destruct (same_entry r c i j) eqn:S0; auto. exfalso.
  apply (T (Assign r c x)); [apply in_or_app; right; left; auto|]. cbn [touches].
  unfold same_entry in S0. rewrite orb_true_iff, !andb_true_iff, !Z.eqb_eq in S0. tauto.
Qed.
Lemma holds_zero n h a i j : holds n h a -> 0 <= j < i -> i < n -> j < vat (sky a) i -> entry_after h i j = 0%Qc.
Proof.
  intros (_ & _ & _ & _ & Hs) J I L. apply entry_untouched. intros e Ie Te.
  destruct (Hs i ltac:(lia)) as (_ & _ & Lw). specialize (Lw e j Ie Te). lia.
Qed.

(* ---------- views of a matrix with a history ---------- *)
Lemma cell_reorg n h a sh : holds n h a -> permutes n (idx sh) -> forall i j, 0 <= i < n -> 0 <= j < n ->
  cell sh a i j = entry_after h (idx sh i) (idx sh j).
Proof.
  intros (_ & _ & _ & HE & _) (P & _) i j Hi Hj. unfold cell, addr.
  pose proof (P i Hi). pose proof (P j Hj).
  destruct (at_const_cases (idx sh i) (idx sh j)) as [(-> & L)|(-> & L)]; cbn [fst snd].
  - apply HE; lia.
  - rewrite HE by lia. apply entry_after_sym.
Qed.
Lemma idx_plain n : permutes n (idx Plain).
Proof. split; cbn [idx]; auto. Qed.

(* the main facts, for a matrix itself *)
Lemma plain_good n h a : holds n h a -> good None n (vat (sky a)) a.
Proof. intros (C & R & V & _). unfold good. auto. Qed.

Lemma plain_ldl P n h a : 0 <= n -> holds n h a ->
  (forall j c, 0 <= j < n -> (forall i k, 0 <= k <= i -> i <= j -> k < j -> factor_eq (entry_after h) c i k) ->
    (entry_after h j j - qsum 0 j (fun m => c j m * c j m * c m m))%Qc <> 0%Qc /\ P (entry_after h j j - qsum 0 j (fun m => c j m * c j m * c m m))%Qc) ->
  exists a', sparse_ldl_decomposition Plain None a = Ok a' /\ inv Plain None n (vat (sky a)) (entry_after h) n a' /\
    forall k, 0 <= k < n -> P (cell Plain a' k k).
Proof.
  intros N H Pv. apply ldl_ok; auto; try exact I.
  - intros i Hi. apply H; auto.
  - apply idx_plain.
  - intros i k K I L. apply (holds_zero n h a); auto.
  - apply (plain_good n h); auto.
  - intros i k K I. apply (cell_reorg n h a Plain H (idx_plain n)); lia.
Qed.

Lemma entry_symmetric n h : symmetric n (entry_after h).
Proof. intros i j _ _. apply entry_after_sym. Qed.

Lemma read_plain n s (A0 : Z -> Z -> Qc) a i j : inv Plain None n s A0 n a -> 0 <= j <= i -> i < n ->
  read_const Plain a i j = Ok (cell Plain a i j).
Proof. intros (G & _) J I. apply (read_const_ok Plain None n s); auto. apply idx_plain. Qed.

Lemma solve_live n h a a' b : 0 <= n -> holds n h a -> inv Plain None n (vat (sky a)) (entry_after h) n a' -> isvec n b ->
  exists x, sparse_solve_ldl Plain None a' b = Ok x /\ isvec n x /\ solves n (entry_after h) (vat x) (vat b).
Proof.
  intros N H I Vb. pose proof I as (G & _). destruct G as (_ & _ & Vs & Es).
  apply (solve_ldl_ok Plain None n (vat (sky a))) with (s := sky a'); auto.
  - intros i Hi. apply H; auto.
  - apply idx_plain.
  - apply entry_symmetric.
Qed.

(* ---------- the skyline of a reordered matrix ---------- *)
Lemma skip_zeros_ok sh n h a (lkok : match sh with Plain => True | Reorganized lk => isvec n lk end) :
  holds n h a -> permutes n (idx sh) -> forall m i j, 0 <= i < n -> 0 <= j -> j + Z.of_nat m = i ->
  exists k, skip_zeros sh a m i j = Ok k /\ j <= k <= i /\ (forall q, j <= q < k -> entry_after h (idx sh i) (idx sh q) = 0%Qc) /\
    (k < i -> entry_after h (idx sh i) (idx sh k) <> 0%Qc).
Proof.
  intros H P m. induction m as [|m IH]; intros i j Hi Hj E; cbn [skip_zeros].
  - exists j. repeat split; try lia.
  - assert (Rd : read_const sh a i j = Ok (entry_after h (idx sh i) (idx sh j))).
    { unfold read_const. assert (Ev : vconst sh a i j = Ok (addr sh i j)).
      { unfold vconst, addr, idx in *. destruct sh as [|lk]; auto. rewrite !(vget_ok n) by (auto; lia). reflexivity. }
      rewrite Ev. cbn [bind]. unfold deref. rewrite get_in.
      - f_equal. rewrite <- (cell_reorg n h a sh H P) by lia. reflexivity.
      - destruct (addr_in sh n P i j ltac:(lia) ltac:(lia)). destruct H as (C & R & _). unfold inside. lia. }
    rewrite Rd. cbn [bind]. destruct (Qc_eq_dec (entry_after h (idx sh i) (idx sh j)) 0) as [Z0|Nz].
    + destruct (IH i (j + 1)) as (k & Ek & K & Hz & Hn); try lia. exists k. split; auto. split; [lia|]. split; auto.
      intros q Q. destruct (Z.eq_dec q j) as [->|]; auto. apply Hz. lia.
    + exists j. repeat split; auto; try lia.
Qed.
Lemma skyline_solved sh n h a (lkok : match sh with Plain => True | Reorganized lk => isvec n lk end) :
  0 <= n -> holds n h a -> permutes n (idx sh) ->
  exists s, solve_for_skyline sh a = Ok s /\ isvec n s /\ forall i, 0 <= i < n ->
    0 <= vat s i <= i /\ (forall q, 0 <= q < vat s i -> entry_after h (idx sh i) (idx sh q) = 0%Qc) /\
    (vat s i < i -> entry_after h (idx sh i) (idx sh (vat s i)) <> 0%Qc).
Proof.
  intros N H P. unfold solve_for_skyline. assert (D : dim a = n) by apply H. rewrite D.
  destruct (for_up_inv (fun i s => isvec n s /\ forall k, 0 <= k < i -> 0 <= vat s k <= k /\ (forall q, 0 <= q < vat s k -> entry_after h (idx sh k) (idx sh q) = 0%Qc) /\
    (vat s k < k -> entry_after h (idx sh k) (idx sh (vat s k)) <> 0%Qc))
    (fun i s => j <- skip_zeros sh a (Z.to_nat i) i 0 ;; vset s i j) 0 n (vnew n 0)) as (s & E & Vs & Hs).
  - lia.
  - split; [apply vnew_vec|intros; lia].
  - intros i s Hi (Vs & Hs). destruct (skip_zeros_ok sh n h a lkok H P (Z.to_nat i) i 0) as (k & Ek & K & Hz & Hn); try lia.
    rewrite Ek. cbn [bind]. destruct (vset_ok n s i k Vs Hi) as (s' & E' & V' & X & O). exists s'. split; auto. split; auto.
    intros q Q. destruct (Z.eq_dec q i) as [->|Ne]; [rewrite X; auto|]. rewrite O by auto. apply Hs. lia.
  - exists s. auto.
Qed.

Lemma reorganize_ok {A} (d : A) n v lk : 0 <= n -> isvec n v -> isvec n lk -> (forall i, 0 <= i < n -> 0 <= vat lk i < n) ->
  exists r, reorganize d v lk = Ok r /\ isvec n r /\ forall i, 0 <= i < n -> vat r i = vat v (vat lk i).
Proof.
  intros N Vv Vl B. unfold reorganize. assert (Ev : icols v = n) by apply Vv. assert (El : icols lk = n) by apply Vl.
  rewrite Ev, El, Z.eqb_refl. cbn [negb].
  destruct (for_up_inv (fun i r => isvec n r /\ forall k, 0 <= k < i -> vat r k = vat v (vat lk k))
    (fun i r => k <- vget lk i ;; x <- vget v k ;; vset r i x) 0 n (vnew n d)) as (r & E & Vr & Hr).
  - lia.
  - split; [apply vnew_vec|intros; lia].
  - intros i r Hi (Vr & Hr). rewrite (vget_ok n) by auto. cbn [bind]. rewrite (vget_ok n) by auto. cbn [bind].
    destruct (vset_ok n r i (vat v (vat lk i)) Vr Hi) as (r' & E' & V' & X & O). exists r'. split; auto. split; auto.
    intros k Hk. destruct (Z.eq_dec k i) as [->|]; auto. rewrite O by auto. apply Hr. lia.
  - exists r. auto.
Qed.

Lemma nodup_map_in {A B} (f : A -> B) l : (forall x y, In x l -> In y l -> f x = f y -> x = y) -> NoDup l -> NoDup (map f l).
Proof.
  induction l as [|x l IH]; intros J D; cbn [map]; constructor; inversion D; subst.
  - rewrite in_map_iff. intros (y & E & Hy). apply J in E; [subst; auto|right; auto|left; auto].
  - apply IH; auto. intros; apply J; auto; right; auto.
Qed.
(* a one-to-one table hits everything *)
Lemma permutes_onto n p : permutes n p -> forall k, 0 <= k < n -> exists i, 0 <= i < n /\ p i = k.
Proof.
  intros (B & Inj) k Hk.
  assert (Inc : incl (map p (zrange 0 n)) (zrange 0 n)).
  { intros y Hy. apply in_map_iff in Hy. destruct Hy as (i & <- & Hi). rewrite in_zrange in *. apply B; auto. }
  assert (Nd : NoDup (map p (zrange 0 n))).
  { apply nodup_map_in.
    - intros i j Hi Hj. rewrite in_zrange in *. apply Inj; auto.
    - apply zrange_nodup. }
  assert (In k (map p (zrange 0 n))).
  { apply (@NoDup_length_incl _ _ (zrange 0 n) Nd); auto; [rewrite map_length|rewrite in_zrange]; lia. }
  apply in_map_iff in H. destruct H as (i & E & Hi). exists i. rewrite in_zrange in Hi. split; auto.
Qed.
Lemma inverse_ok n lk : 0 <= n -> isvec n lk -> permutes n (vat lk) ->
  exists r, inverse lk = Ok r /\ isvec n r /\ forall i, 0 <= i < n -> vat r (vat lk i) = i.
Proof.
  intros N Vl (B & Inj). unfold inverse. assert (El : icols lk = n) by apply Vl. rewrite El.
  destruct (for_up_inv (fun i r => isvec n r /\ forall k, 0 <= k < i -> vat r (vat lk k) = k)
    (fun i r => k <- vget lk i ;; vset r k i) 0 n (vnew n 0)) as (r & E & Vr & Hr).
  - lia.
  - split; [apply vnew_vec|intros; lia].
  - intros i r Hi (Vr & Hr). rewrite (vget_ok n) by auto. cbn [bind].
    destruct (vset_ok n r (vat lk i) i Vr (B i Hi)) as (r' & E' & V' & X & O). exists r'. split; auto. split; auto.
    intros k Hk. destruct (Z.eq_dec k i) as [->|Ne]; auto. rewrite O; [apply Hr; lia|].
    intros Eq. apply Inj in Eq; lia.
  - exists r. auto.
Qed.

(* sums over a reordering *)
Lemma qsum_list a b f : qsum a b f = fold_right Qcplus 0%Qc (map f (zrange a b)).
Proof. unfold qsum. induction (zrange a b); simpl; congruence. Qed.
From Coq Require Import Permutation.
Lemma fold_perm l l' : Permutation l l' -> fold_right Qcplus 0%Qc l = fold_right Qcplus 0%Qc l'.
Proof. induction 1; simpl; try congruence. ring. Qed.
Lemma qsum_permute n p f : 0 <= n -> permutes n p -> qsum 0 n (fun i => f (p i)) = qsum 0 n f.
Proof.
  intros N P. rewrite !qsum_list. rewrite <- (map_map p f). apply fold_perm, Permutation_map.
  pose proof P as (B & Inj). apply NoDup_Permutation.
  - apply nodup_map_in.
    + intros i j Hi Hj. rewrite in_zrange in *. apply Inj; auto.
    + apply zrange_nodup.
  - apply zrange_nodup.
  - intros k. rewrite in_map_iff, in_zrange. split.
    + intros (i & <- & Hi). rewrite in_zrange in Hi. apply B; auto.
    + intros Hk. destruct (permutes_onto n p P k Hk) as (i & Hi & E). exists i. rewrite in_zrange. auto.
Qed.

Lemma reordered_posdef n A p : 0 <= n -> permutes n p -> positive_definite n A -> positive_definite n (fun i j => A (p i) (p j)).
Proof.
  intros N P Pd x (k & Hk & Xk).
  assert (E : exists q, forall i, 0 <= i < n -> q (p i) = i).
  { exists (fun k => fold_right (fun i r => if p i =? k then i else r) 0 (zrange 0 n)). intros i Hi.
    assert (G : forall l, (forall j, In j l -> 0 <= j < n) -> In i l -> fold_right (fun j r => if p j =? p i then j else r) 0 l = i).
    { induction l as [|j l IHl]; intros F I0; [destruct I0|]. cbn [fold_right]. destruct (Z.eqb_spec (p j) (p i)) as [e|e].
      - apply (proj2 P); auto. apply F. left; auto.
      - apply IHl; [intros; apply F; right; auto|]. destruct I0; congruence. }
    apply G; [intros j; rewrite in_zrange; lia|rewrite in_zrange; lia]. }
  destruct E as (q & Q). set (y := fun i => x (q i)).
  assert (T : forall i, 0 <= i < n -> times n A y (p i) = times n (fun i j => A (p i) (p j)) x i).
  { intros i Hi. unfold times. rewrite <- (qsum_permute n p (fun j => A (p i) j * y j)%Qc) by auto.
    apply qsum_ext. intros j Hj. unfold y. rewrite Q by auto. reflexivity. }
  rewrite (qsum_ext 0 n _ (fun i => y (p i) * times n A y (p i))%Qc).
  - rewrite (qsum_permute n p (fun i => y i * times n A y i)%Qc) by auto. apply Pd.
    exists (p k). split; [apply P; auto|]. unfold y. rewrite Q by auto. auto.
  - intros i Hi. rewrite T by auto. unfold y. rewrite Q by auto. reflexivity.
Qed.

Lemma reordered_ok n h a b lk : 0 <= n -> holds n h a -> isvec n b -> isvec n lk -> permutes n (vat lk) ->
  leading_regular n (fun i j => entry_after h (vat lk i) (vat lk j)) ->
  exists x, solve_reordered a b lk = Ok x /\ isvec n x /\ solves n (entry_after h) (vat x) (vat b).
Proof.
  intros N H Vb Vl P Re. unfold solve_reordered.
  destruct (skyline_solved (Reorganized lk) n h a Vl N H P) as (s & Es & Vs & Hs). rewrite Es. cbn [bind].
  destruct (reorganize_ok 0%Qc n b lk N Vb Vl (proj1 P)) as (rb & Erb & Vrb & Hrb). rewrite Erb. cbn [bind].
  set (A1 := fun i j => entry_after h (vat lk i) (vat lk j)) in *.
  assert (Sy : symmetric n A1) by (intros i j _ _; apply entry_after_sym).
  assert (G : good (Some s) n (vat s) a) by (destruct H as (C & R & V & _); unfold good; auto).
  assert (Sk : forall i, 0 <= i < n -> 0 <= vat s i <= i) by (intros i Hi; apply Hs; auto).
  assert (Ze : forall i k, 0 <= k < i -> i < n -> k < vat s i -> A1 i k = 0%Qc) by (intros i k K I L; apply (Hs i); lia).
  destruct (ldl_ok (Reorganized lk) (Some s) n (vat s) Sk P Vl ltac:(discriminate) A1 Ze (fun _ => True) a N G) as (a' & Ed & Ia & _).
  - intros i k K I. apply (cell_reorg n h a (Reorganized lk) H P); lia.
  - intros j c J F. split; auto. apply (pivot_nonzero n); auto.
  - unfold sparse_solve. rewrite Ed. cbn [bind].
    destruct (solve_ldl_ok (Reorganized lk) (Some s) n (vat s) Sk P Vl ltac:(discriminate) A1 Sy s Vs (fun i _ => eq_refl) a' rb N Ia Vrb eq_refl)
      as (y & Ey & Vy & Hy).
    rewrite Ey. cbn [bind].
    destruct (inverse_ok n lk N Vl P) as (il & Eil & Vil & Hil). rewrite Eil. cbn [bind].
    assert (Bil : forall i, 0 <= i < n -> 0 <= vat il i < n).
    { intros i Hi. destruct (permutes_onto n (vat lk) P i Hi) as (k & Hk & <-). now rewrite Hil. }
    destruct (reorganize_ok 0%Qc n y il N Vy Vil Bil) as (x & Ex & Vx & Hx). exists x. split; auto. split; auto.
    intros i Hi. destruct (permutes_onto n (vat lk) P i Hi) as (k & Hk & <-).
    rewrite <- Hrb, <- (Hy k Hk) by auto. unfold times.
    rewrite <- (qsum_permute n (vat lk) (fun j => entry_after h (vat lk k) j * vat x j)%Qc) by auto.
    apply qsum_ext. intros j Hj. rewrite Hx by (apply P; auto). rewrite Hil by auto. reflexivity.
Qed.

(* ---------- several right hand sides ---------- *)
Lemma column_vec n (b : img Qc) i : 0 <= n -> irows b = n -> 0 <= i < icols b ->
  exists c, for_up 0 n (fun r c => y <- get b i r ;; vset c r y) (vnew n 0%Qc) = Ok c /\ isvec n c /\
    forall r, 0 <= r < n -> vat c r = pix b i r.
Proof.
  intros N R I. apply (for_up_inv (fun k c => isvec n c /\ forall r, 0 <= r < k -> vat c r = pix b i r)); [lia| |].
  - split; [apply vnew_vec|intros; lia].
  - intros k c Hk (Vc & Hc). rewrite get_in by (unfold inside; lia). cbn [bind].
    destruct (vset_ok n c k (pix b i k) Vc Hk) as (c' & E & V & X & O). exists c'. split; auto. split; auto.
    intros r Hr. destruct (Z.eq_dec r k) as [->|]; auto. rewrite O by auto. apply Hc. lia.
Qed.
Lemma set_column n (x : img Qc) (y : vec Qc) i w : 0 <= n -> icols x = w -> irows x = n -> 0 <= i < w -> isvec n y ->
  exists x', for_up 0 n (fun r x => q <- vget y r ;; put x i r q) x = Ok x' /\ icols x' = w /\ irows x' = n /\
    (forall r, 0 <= r < n -> pix x' i r = vat y r) /\ forall k r, k <> i -> pix x' k r = pix x k r.
Proof.
  intros N C R I Vy.
  destruct (for_up_inv (fun m x' => icols x' = w /\ irows x' = n /\ (forall r, 0 <= r < m -> pix x' i r = vat y r) /\ forall k r, k <> i -> pix x' k r = pix x k r)
    (fun r x => q <- vget y r ;; put x i r q) 0 n x) as (x' & E & H).
  - lia.
  - repeat split; auto. intros; lia.
  - intros m x1 Hm (C1 & R1 & H1 & O1). rewrite (vget_ok n) by auto. cbn [bind].
    destruct (put_in x1 i m (vat y m)) as (x2 & E2 & C2 & R2 & P & O); [unfold inside; lia|].
    exists x2. split; auto. split; [congruence|split; [congruence|split]].
    + intros r Hr. destruct (Z.eq_dec r m) as [->|]; auto. rewrite O by auto. apply H1. lia.
    + intros k r Nk. rewrite O by auto. auto.
  - exists x'. split; auto.
Qed.

Lemma multi_ok n h a b : 0 <= n -> holds n h a -> irows b = n -> 0 <= icols b -> leading_regular n (entry_after h) ->
  exists a' x, multi_sparse_solve None a b = Ok (a', x) /\ icols x = icols b /\ irows x = n /\
    forall c, 0 <= c < icols b -> solves n (entry_after h) (fun j => pix x c j) (fun j => pix b c j).
Proof.
  intros N H Rb Cb Re. unfold multi_sparse_solve. assert (D : dim a = n) by apply H. rewrite D, Rb, Z.eqb_refl. cbn [negb].
  assert (Vs : isvec n (sky a)) by apply H.
  assert (G : good (Some (sky a)) n (vat (sky a)) a) by (destruct H as (C & R & V & _); unfold good; auto).
  assert (Sk : forall i, 0 <= i < n -> 0 <= vat (sky a) i <= i) by (intros i Hi; apply H; auto).
  destruct (ldl_ok Plain (Some (sky a)) n (vat (sky a)) Sk (idx_plain n) Logic.I ltac:(discriminate) (entry_after h)) with (P := fun _ : Qc => True) (a := a)
    as (a' & Ed & Ia & _); auto.
  - intros i k K I L. apply (holds_zero n h a); auto.
  - intros i k K I. apply (cell_reorg n h a Plain H (idx_plain n)); lia.
  - intros j c J F. split; auto. apply (pivot_nonzero n); auto. apply entry_symmetric.
  - rewrite Ed. cbn [bind]. assert (D' : dim a' = n) by apply Ia. rewrite D'.
    destruct (for_up_inv (fun i x => icols x = icols b /\ irows x = n /\ forall c, 0 <= c < i -> solves n (entry_after h) (fun j => pix x c j) (fun j => pix b c j))
      (fun i x =>
      c <- for_up 0 n (fun r c => y <- get b i r ;; vset c r y) (vnew n 0%Qc) ;;
      y <- sparse_solve_ldl Plain (Some (sky a)) a' c ;;
      for_up 0 n (fun r x => q <- vget y r ;; put x i r q) x) 0 (icols b) (Img (icols b) n (fun _ _ => 0%Qc))) as (x & E & Cx & Rx & Hx).
    + lia.
    + cbn [icols irows]. repeat split; auto. intros; lia.
    + intros i x Hi (Cx & Rx & Hx). destruct (column_vec n b i N Rb Hi) as (c & Ec & Vc & Hc). rewrite Ec. cbn [bind].
      destruct (solve_ldl_ok Plain (Some (sky a)) n (vat (sky a)) Sk (idx_plain n) Logic.I ltac:(discriminate) (entry_after h) (entry_symmetric n h) (sky a) Vs (fun i _ => eq_refl)
        a' c N Ia Vc eq_refl) as (y & Ey & Vy & Hy).
      rewrite Ey. cbn [bind].
      destruct (set_column n x y i (icols b) N Cx Rx Hi Vy) as (x' & Ex & Cx' & Rx' & Hx' & Ox').
      exists x'. split; auto. split; auto. split; auto. intros k Hk. destruct (Z.eq_dec k i) as [->|Ne].
      * intros r Hr. rewrite <- Hc, <- (Hy r Hr) by auto. unfold times. apply qsum_ext. intros j Hj. now rewrite Hx' by auto.
      * intros r Hr. rewrite <- (Hx k ltac:(lia) r Hr). unfold times. apply qsum_ext. intros j Hj. now rewrite Ox' by auto.
    + rewrite E. cbn [bind]. exists a', x. auto.
Qed.
