From Coq Require Import List ZArith Lia Bool QArith Permutation.
From Verif Require Import Lib.Base Ransac.Model Ransac.Spec Ransac.Proofs.
Import ListNotations.
Open Scope Z_scope.

(** ** An example: translations of integers

    Two lists of integers; the model is the difference, fitted as the mean of the
    differences (rounded down). *)
Definition diffs (l1 l2 : list Z) : list Z := map2 (fun a b => b - a) l1 l2.
Definition mean_diff (l1 l2 : list Z) : Z := fold_right Z.add 0 (diffs l1 l2) / Z.of_nat (length l1).
Definition shift (iters : Z) (thr : Z) (red : bool) : config Z Z Z :=
  Config mean_diff (fun l1 l2 _ => mean_diff l1 l2) (fun _ => 1) (fun h a b => inject_Z (Z.abs (b - a - h))) 0 iters (inject_Z thr) red.

(** rand() that makes the given positions out of five. *)
Definition positions (l : list Z) (k : nat) : Z := nth k l 0 * 2147483648 / 5 + 1.

Lemma positions_ok l : (forall i, In i l -> 0 <= i < 5) -> rand_ok (positions l).
Proof.
  intros IN k. unfold positions. destruct (nth_in_or_default k l 0) as [I| ->]; [|cbn; lia].
  apply IN in I. revert I. generalize (nth k l 0). intros z Hz.
  assert (z = 0 \/ z = 1 \/ z = 2 \/ z = 3 \/ z = 4) as [->|[->|[->|[->| ->]]]] by lia; cbn; lia.
Qed.

(** ** C64: picking the samples *)

(** A sample consists of as many integers as are asked for, all different and in
    the range; only a request for more integers than there are is refused. *)
Theorem unique_integers_distinct rnd fuel k size n : rand_ok rnd ->
  match get_n_unique_integers fuel rnd k size n with
  | Ok (l, _) => is_sample size (Z.of_nat n) l
  | Throw e => e = ArgumentErr /\ size < Z.of_nat n
  | UB u => u = NoTerm /\ Z.of_nat n <= size
  end.
Proof.
  intros R. destruct (get_n_unique_integers fuel rnd k size n) as [[l k']|e|u] eqn:E.
  - eapply unique_ok; eauto.
  - unfold get_n_unique_integers in E. destruct (Z.ltb_spec size (Z.of_nat n)) as [L|G].
    + injection E as <-. auto.
    + destruct (draws_cases rnd fuel size n k []) as [(x & X)|X]; rewrite X in E; discriminate.
  - unfold get_n_unique_integers in E. destruct (Z.ltb_spec size (Z.of_nat n)) as [L|G]; [discriminate|].
    destruct (draws_cases rnd fuel size n k []) as [(x & X)|X]; rewrite X in E; [discriminate|]. injection E as <-. auto.
Qed.

(** With a generator that returns to every part of its range again and again
    the sample is found. *)
Theorem unique_integers_found rnd k size n : rand_ok rnd -> Z.of_nat n <= size ->
  (forall k v, 0 <= v < size -> exists k', (k <= k')%nat /\ v * 2147483648 <= rnd k' * size < (v + 1) * 2147483648) ->
  exists fuel0, forall fuel, (fuel0 <= fuel)%nat -> exists l k', get_n_unique_integers fuel rnd k size n = Ok (l, k').
Proof.
  intros R L PART.
  assert (BACK : forall k v, 0 <= v < size -> exists k', (k <= k')%nat /\ pick (rnd k') size = v).
  { intros k0 v B. destruct (PART k0 v B) as (k' & LE & P). exists k'. split; auto. unfold pick. symmetry.
    apply (Z.div_unique _ _ v (rnd k' * size - 2147483648 * v)); lia. }
  destruct (draws_found rnd R size BACK n k []) as (fuel0 & [l k'] & D); [constructor|intros i []|cbn [length]; lia|].
  exists fuel0. intros fuel LE. exists l, k'. unfold get_n_unique_integers.
  destruct (Z.ltb_spec size (Z.of_nat n)); [lia|]. eapply draws_more; eauto.
Qed.

(** The search for a new integer need not end: with a generator that repeats
    itself two different integers are never found. *)
Theorem unique_integers_end_refuted :
  ~ (forall rnd k size n, rand_ok rnd -> Z.of_nat n <= size ->
       exists fuel x, get_n_unique_integers fuel rnd k size n = Ok x).
Proof.
  intros F. destruct (F (fun _ => 0) O 2 2%nat) as (fuel & x & E); [intros k; lia|cbn; lia|].
  unfold get_n_unique_integers in E. change (2 <? Z.of_nat 2) with false in E. cbv iota in E. cbn [draws] in E.
  destruct fuel as [|fuel]; [discriminate|]. cbn [draw existsb bind app] in E. change (pick 0 2) with 0 in E.
  assert (N : forall f k, draw f (fun _ => 0) k 2 [0] = UB NoTerm) by (induction f; intros; cbn; auto).
  change (if existsb (Z.eqb 0) [0] then draw fuel (fun _ => 0) 2 2 [0] else Ok (0, 2%nat)) with (draw fuel (fun _ : nat => 0) 2 2 [0]) in E.
  rewrite N in E. discriminate.
Qed.

Example unique_integers_met : get_n_unique_integers 10 (positions [3; 3; 1; 3; 4]) 0 5 3 = Ok ([3; 1; 4], 5%nat).
Proof. reflexivity. Qed.

(** ** C64: the inliers *)

(** The inliers of a model are exactly the pairs with an error below the
    threshold, in the order of the data. *)
Theorem inliers_exact {A B H} (c : config A B H) h p1 p2 : (length p1 <= length p2)%nat -> exists m,
  inliers c h p1 p2 = Ok (map fst m, map snd m) /\
  selected (fun ab => (err c h ab < threshold c)%Q) (combine p1 p2) m.
Proof. apply inliers_ok. Qed.

(** Likewise their positions. *)
Theorem inlier_indices_exact {A B H} (c : config A B H) h p1 p2 : (length p1 <= length p2)%nat -> exists l,
  inlier_indices c h p1 p2 = Ok l /\
  selected (fun j => exists ab, nth_error (combine p1 p2) (Z.to_nat j) = Some ab /\ (err c h ab < threshold c)%Q)
    (map Z.of_nat (seq 0 (length p1))) l.
Proof.
  intros L. destruct (indices_ok c h p1 p2 0 L) as (l & E & SL). exists l. split; auto.
  assert (G : Forall (fun j => 0 <= j) (map (fun n => 0 + Z.of_nat n) (seq 0 (length p1)))).
  { apply Forall_forall. intros j I. apply in_map_iff in I. destruct I as (n & <- & _). lia. }
  rewrite (map_ext Z.of_nat (fun n => 0 + Z.of_nat n)) by (intros; lia).
  clear - SL G. induction SL as [|x l m P SL IH|x l m P SL IH]; inversion G; subst; [constructor|constructor 2|constructor 3]; auto.
  - destruct P as (ab & _ & E & Q). rewrite Z.sub_0_r in E. eauto.
  - intros (ab & E & Q). apply P. exists ab. rewrite Z.sub_0_r. auto.
Qed.

(** The lists are not compared: a second list that is too short is read beyond
    its end. *)
Theorem inliers_safe_refuted :
  ~ (forall (c : config Z Z Z) h p1 p2, exists x, inliers c h p1 p2 = Ok x).
Proof. intros F. destruct (F (shift 1 1 false) 0 [1] []) as (x & E). discriminate. Qed.

Example inliers_met :
  inliers (shift 1 20 false) 7 [0; 10; 20; 30; 40] [0; -9; 39; 49; 59] = Ok ([0; 20; 30; 40], [0; 39; 49; 59]) /\
  inlier_indices (shift 1 20 false) 7 [0; 10; 20; 30; 40] [0; -9; 39; 49; 59] = Ok [0; 2; 3; 4].
Proof. split; reflexivity. Qed.

(** ** C64: one attempt *)

(** Whatever the order in which the parallel iterations finish: inputs that do not
    fit are refused.  Otherwise the result is the model with the smallest mean
    error among those the samples lead to, and the attempt fails exactly if
    no sample leads to a model with enough inliers. *)
Theorem attempt_best {A B H} (c : config A B H) fuel rnd k order least p1 p2 :
  rand_ok rnd -> Permutation order (seq 0 (Z.to_nat (iterations c))) -> 1 <= least ->
  (refused c least p1 p2 /\ attempt_ransac c fuel rnd k order least p1 p2 = (Throw OtherErr, k)) \/
  (~ refused c least p1 p2 /\ exists a q, p1 = a :: q /\
     match all_samples fuel rnd k (Z.of_nat (length p1)) (needed c a) (Z.to_nat (iterations c)) with
     | Ok (samples, k') =>
         Z.of_nat (length samples) = iterations c /\ Forall (is_sample (Z.of_nat (length p1)) (needed c a)) samples /\
         ((exists h s e, attempt_ransac c fuel rnd k order least p1 p2 = (Ok h, k') /\
             In s samples /\ candidate c least p1 p2 s h e /\
             forall s' h' e', In s' samples -> candidate c least p1 p2 s' h' e' -> (e <= e')%Q) \/
          (attempt_ransac c fuel rnd k order least p1 p2 = (Throw OtherErr, k') /\
             forall s h e, In s samples -> ~ candidate c least p1 p2 s h e))
     | r => r = UB NoTerm /\ attempt_ransac c fuel rnd k order least p1 p2 = (UB NoTerm, k)
     end).
Proof.
  intros R P L1. destruct (refused_dec c least p1 p2) as [RF|NR]; [left; split; auto; now apply attempt_refused|].
  right. split; auto. destruct p1 as [|a q] eqn:EP; [exfalso; apply NR; exact I|]. exists a, q. split; auto. rewrite <- EP in *.
  assert (NR' := NR). unfold refused in NR'. rewrite EP in NR'. rewrite <- EP in NR'.
  assert (I0 : 0 <= iterations c) by lia.
  destruct (all_samples_cases rnd fuel (Z.of_nat (length p1)) (needed c a) (Z.to_nat (iterations c)) k) as [(N & I & _)|(_ & [([samples k1] & AS)|AS])].
  - lia.
  - exfalso. apply NR'. do 4 right. split; auto. lia.
  - rewrite AS. destruct (all_samples_ok _ R _ _ _ _ _ _ _ AS) as (LS & FS). split; [lia|]. split; auto.
    destruct (attempt_ok c fuel rnd k order least p1 p2 samples k1 a q R P NR EP AS) as (s & SN & E).
    unfold seen in SN. destruct (min_err s) as [m|].
    + destruct SN as (N1 & N2 & (y & IY & CY) & MIN). left. exists (best s), y, m.
      destruct (Z.ltb_spec (num_inliers s) least); [lia|]. auto.
    + destruct SN as (_ & N0 & NONE). right. destruct (Z.ltb_spec (num_inliers s) least); [|lia]. split; [exact E|exact NONE].
  - rewrite AS. split; auto. unfold attempt_ransac. rewrite EP in *.
    destruct (Nat.eqb_spec (length (a :: q)) (length p2)) as [_|NE]; [cbn [negb]|tauto].
    destruct (Z.ltb_spec (Z.of_nat (length (a :: q))) (needed c a)); [lia|].
    destruct (Z.ltb_spec least (needed c a)); [lia|].
    destruct (Z.ltb_spec (iterations c) 0); [lia|]. now rewrite AS.
Qed.

(** The order decides only between models with the same mean error: whether the
    attempt succeeds, and the error, do not depend on it. *)
Theorem attempt_order_irrelevant {A B H} (c : config A B H) fuel rnd k o1 o2 least p1 p2 :
  rand_ok rnd -> Permutation o1 (seq 0 (Z.to_nat (iterations c))) -> Permutation o2 (seq 0 (Z.to_nat (iterations c))) ->
  1 <= least ->
  let '(r1, k1) := attempt_ransac c fuel rnd k o1 least p1 p2 in
  let '(r2, k2) := attempt_ransac c fuel rnd k o2 least p1 p2 in
  k1 = k2 /\
  match r1, r2 with
  | Ok h1, Ok h2 => exists s1 s2 e1 e2, candidate c least p1 p2 s1 h1 e1 /\ candidate c least p1 p2 s2 h2 e2 /\ (e1 == e2)%Q /\
      (s1 = s2 -> h1 = h2)
  | Throw x, Throw y => x = y
  | UB x, UB y => x = y
  | _, _ => False
  end.
Proof.
  intros R P1 P2 L.
  destruct (attempt_best c fuel rnd k o1 least p1 p2 R P1 L) as [(RF & ->)|(NR & a & q & EP & M)];
  destruct (attempt_best c fuel rnd k o2 least p1 p2 R P2 L) as [(RF' & ->)|(NR' & a' & q' & EP' & M')]; try contradiction; [auto|].
  rewrite EP in EP'. injection EP' as <- <-.
  destruct (all_samples fuel rnd k (Z.of_nat (length p1)) (needed c a) (Z.to_nat (iterations c))) as [[samples k']|e|u].
  - destruct M as (_ & _ & [(h & s & e & -> & I & C & MIN)|(-> & NONE)]);
    destruct M' as (_ & _ & [(h' & s' & e' & -> & I' & C' & MIN')|(-> & NONE')]).
    + split; auto. exists s, s', e, e'. split; auto. split; auto. split.
      * apply Qle_antisym; eauto.
      * intros <-. eapply candidate_fun; eauto.
    + exfalso. eapply NONE'; eauto.
    + exfalso. eapply NONE; eauto.
    + auto.
  - destruct M; discriminate.
  - destruct M as (_ & ->). destruct M' as (_ & ->). auto.
Qed.

Definition two_clusters (order : list nat) :=
  attempt_ransac (shift 2 10 false) 5 (positions [0; 4]) 0 order 2 [1; 2; 3; 4; 5] [1; 2; 3; 104; 105].

(** The result does depend on the order of the threads: of two models with the
    same error the one that is ready first is taken, although the samples are
    drawn beforehand "to ensure a deterministic outcome". *)
Theorem attempt_deterministic_refuted :
  ~ (forall (c : config Z Z Z) fuel rnd k o1 o2 least p1 p2, rand_ok rnd ->
       Permutation o1 (seq 0 (Z.to_nat (iterations c))) -> Permutation o2 (seq 0 (Z.to_nat (iterations c))) ->
       attempt_ransac c fuel rnd k o1 least p1 p2 = attempt_ransac c fuel rnd k o2 least p1 p2).
Proof.
  intros F.
  assert (E : two_clusters [0; 1]%nat = two_clusters [1; 0]%nat).
  { apply F.
    - apply positions_ok. cbn [In]. lia.
    - apply Permutation_refl.
    - apply perm_swap. }
  vm_compute in E. discriminate.
Qed.

Definition spread := attempt_ransac (shift 1 20 false) 5 (positions [0]) 0 [0%nat] 5 [0; 10; 20; 30; 40] [0; -9; 39; 49; 59].

(** The number of inliers is counted before the model is fitted to them: the
    model returned can have fewer inliers than were asked for. *)
Theorem result_has_inliers_refuted :
  ~ (forall (c : config Z Z Z) fuel rnd k order least p1 p2 h k' l1 l2, rand_ok rnd ->
       Permutation order (seq 0 (Z.to_nat (iterations c))) ->
       attempt_ransac c fuel rnd k order least p1 p2 = (Ok h, k') -> inliers c h p1 p2 = Ok (l1, l2) ->
       least <= Z.of_nat (length l1)).
Proof.
  intros F.
  assert (E : 5 <= Z.of_nat (length [0; 20; 30; 40])).
  { apply (F (shift 1 20 false) 5%nat (positions [0]) O [0%nat] 5 [0; 10; 20; 30; 40] [0; -9; 39; 49; 59] 7 1%nat _ [0; 39; 49; 59]).
    - apply positions_ok. cbn [In]. lia.
    - apply Permutation_refl.
    - vm_compute. reflexivity.
    - reflexivity. }
  cbn in E. lia.
Qed.

Example attempt_met :
  rand_ok (positions [0; 4]) /\ Permutation [1; 0]%nat (seq 0 (Z.to_nat (iterations (shift 2 10 false)))) /\
  ~ refused (shift 2 10 false) 2 [1; 2; 3; 4; 5] [1; 2; 3; 104; 105] /\
  two_clusters [0; 1]%nat = (Ok 0, 2%nat) /\ two_clusters [1; 0]%nat = (Ok 100, 2%nat) /\
  spread = (Ok 7, 1%nat) /\
  attempt_ransac (shift 2 10 false) 5 (positions [0; 4]) 0 [0; 1]%nat 4 [1; 2; 3; 4; 5] [1; 2; 3; 104; 105] = (Throw OtherErr, 2%nat).
Proof.
  split; [apply positions_ok; cbn [In]; lia|]. split; [apply perm_swap|]. split; [cbn; lia|].
  repeat split; vm_compute; reflexivity.
Qed.

(** ** C64: several attempts *)

Lemma attempts_ok {A B H} (c : config A B H) fuel rnd orders p1 p2 : rand_ok rnd ->
  (forall n, Permutation (orders n) (seq 0 (Z.to_nat (iterations c)))) ->
  forall m k least r least' k', attempts c m fuel rnd k orders least p1 p2 = (r, least', k') ->
  exists n, (n <= m)%nat /\ least' = lowered n least /\
    (n = O \/ reduces c = true) /\
    (forall j, (j < n)%nat -> exists k0 i k1, attempt_ransac c fuel rnd k0 (orders i) (lowered j least) p1 p2 = (Throw OtherErr, k1)) /\
    (forall j, (1 <= j < n)%nat -> 2 <= lowered j least) /\
    match r with
    | Ok h => (n < m)%nat /\ (n = O \/ 2 <= least') /\
        exists k0 i, attempt_ransac c fuel rnd k0 (orders i) least' p1 p2 = (Ok h, k')
    | Throw e => e = OtherErr /\
        (reduces c = false /\ (m = O \/ exists k0 i k1, attempt_ransac c fuel rnd k0 (orders i) least' p1 p2 = (Throw OtherErr, k1)) \/
         reduces c = true /\ (n = m \/ least' < 2))
    | UB u => u = NoTerm
    end.
Proof.
  intros R P. induction m as [|m IH]; intros k least r least' k' E; cbn [attempts] in E.
  - injection E as <- <- <-. exists O. cbn [lowered]. repeat split; auto; try (intros; lia).
    destruct (reduces c); auto.
  - destruct (attempt_ransac c fuel rnd k (orders (S m)) least p1 p2) as [r1 k1] eqn:T.
    pose proof (attempt_safe c fuel rnd k (orders (S m)) least p1 p2 r1 k1 R (P _) T) as SF.
    destruct r1 as [h|e|u].
    + injection E as <- <- <-. exists O. cbn [lowered]. repeat split; auto; try (intros; lia).
      exists k, (S m). auto.
    + subst e. destruct (reduces c) eqn:RC; cbn [negb] in E.
      * destruct (Z.ltb_spec (reduced least) 2) as [L2|G2].
        -- injection E as <- <- <-. exists 1%nat. cbn [lowered]. repeat split; auto; try (intros; lia).
           intros j Hj. replace j with O by lia. cbn [lowered]. eauto.
        -- destruct (IH _ _ _ _ _ E) as (n & LE & -> & _ & FL & LO & MR).
           exists (S n). cbn [lowered]. fold (reduced least).
           split; [lia|]. split; [auto|]. split; [auto|]. split; [|split].
           ++ intros [|j] Hj; cbn [lowered]; [eauto|]. fold (reduced least). apply FL. lia.
           ++ intros [|j] Hj; [lia|]. cbn [lowered]. fold (reduced least). destruct j; [exact G2|]. apply LO. lia.
           ++ destruct r as [h|e|u]; [| |exact MR].
              ** destruct MR as (? & [N0|?] & ?); (split; [lia|]); (split; [|auto]); right; [subst n; exact G2|auto].
              ** destruct MR as (-> & MR). split; auto. destruct MR as [(? & _)|(_ & [->|?])]; [discriminate| |]; auto.
      * injection E as <- <- <-. exists O. cbn [lowered]. repeat split; auto; try (intros; lia).
        left. split; auto. right. eauto.
    + injection E as <- <- <-. exists O. cbn [lowered]. repeat split; auto; try (intros; lia).
Qed.

(** At most ten attempts are made.  After each failure two thirds of the inliers
    are asked for, but not less than two, and only if this was wished.  The result
    is that of the last attempt; the attempts before have failed. *)
Theorem ransac_attempts {A B H} (c : config A B H) fuel rnd k orders least p1 p2 r least' k' : rand_ok rnd ->
  (forall n, Permutation (orders n) (seq 0 (Z.to_nat (iterations c)))) ->
  ransac c fuel rnd k orders least p1 p2 = (r, least', k') ->
  exists n, (n <= 10)%nat /\ least' = lowered n least /\
    (n = O \/ reduces c = true) /\
    (forall j, (j < n)%nat -> exists k0 i k1, attempt_ransac c fuel rnd k0 (orders i) (lowered j least) p1 p2 = (Throw OtherErr, k1)) /\
    (forall j, (1 <= j < n)%nat -> 2 <= lowered j least) /\
    match r with
    | Ok h => (n < 10)%nat /\ (n = O \/ 2 <= least') /\
        exists k0 i, attempt_ransac c fuel rnd k0 (orders i) least' p1 p2 = (Ok h, k')
    | Throw e => e = OtherErr /\
        (reduces c = false /\ (exists k0 i k1, attempt_ransac c fuel rnd k0 (orders i) least' p1 p2 = (Throw OtherErr, k1)) \/
         reduces c = true /\ (n = 10%nat \/ least' < 2))
    | UB u => u = NoTerm
    end.
Proof.
  intros R P E. destruct (attempts_ok c fuel rnd orders p1 p2 R P _ _ _ _ _ _ E) as (n & ? & ? & ? & ? & ? & MR).
  exists n. repeat split; auto. destruct r as [h|e|u]; auto.
  destruct MR as (? & [(? & [?|?])|?]); [discriminate| |]; auto.
Qed.

Definition lowering :=
  ransac (shift 2 10 true) 5 (positions [0; 4; 0; 4]) 0 (fun _ => [0; 1]%nat) 4 [1; 2; 3; 4; 5] [1; 2; 3; 104; 105].

(** The lower number of inliers stays with the object: the next call starts with
    it, not with the number given to the constructor. *)
Theorem ransac_keeps_minimum_refuted :
  ~ (forall (c : config Z Z Z) fuel rnd k orders least p1 p2 h least' k', rand_ok rnd ->
       (forall n, Permutation (orders n) (seq 0 (Z.to_nat (iterations c)))) ->
       ransac c fuel rnd k orders least p1 p2 = (Ok h, least', k') -> least' = least).
Proof.
  intros F.
  assert (E : 2 = 4).
  { apply (F (shift 2 10 true) 5%nat (positions [0; 4; 0; 4]) O (fun _ => [0; 1]%nat) 4 [1; 2; 3; 4; 5] [1; 2; 3; 104; 105] 0 2 4%nat).
    - apply positions_ok. cbn [In]. lia.
    - intros _. apply Permutation_refl.
    - vm_compute. reflexivity. }
  discriminate.
Qed.

Example ransac_met : lowering = (Ok 0, 2, 4%nat).
Proof. vm_compute. reflexivity. Qed.

Print Assumptions unique_integers_distinct.
Print Assumptions unique_integers_found.
Print Assumptions unique_integers_end_refuted.
Print Assumptions inliers_exact.
Print Assumptions inlier_indices_exact.
Print Assumptions inliers_safe_refuted.
Print Assumptions attempt_best.
Print Assumptions attempt_order_irrelevant.
Print Assumptions attempt_deterministic_refuted.
Print Assumptions result_has_inliers_refuted.
Print Assumptions ransac_attempts.
Print Assumptions ransac_keeps_minimum_refuted.
