From Coq Require Import List ZArith Lia Bool Relations Sorting.Sorted Permutation.
From Verif Require Import Lib.Base Lib.Lists Lib.OMap CNet.Model Tracks.Model Tracks.Spec Tracks.Proofs.
Import ListNotations.
Open Scope Z_scope.

(** ** Random subsets *)

Lemma insert_int_perm x l : Permutation (insert_int x l) (x :: l).
Proof.
  induction l as [|y l IH]; cbn [insert_int]; auto. destruct (x <=? y); auto.
  etransitivity; [apply perm_skip, IH|]. apply perm_swap.
Qed.
Lemma sort_ints_perm l : Permutation (sort_ints l) l.
Proof. induction l as [|x l IH]; cbn [sort_ints fold_right]; auto. etransitivity; [apply insert_int_perm|]. now constructor. Qed.
Lemma insert_int_sorted x l : StronglySorted Z.le l -> StronglySorted Z.le (insert_int x l).
Proof.
  induction l as [|y l IH]; intros S; cbn [insert_int]; [repeat constructor|].
  inversion S as [|? ? S' F]; subst. destruct (Z.leb_spec x y).
  - constructor; auto. constructor; auto. eapply Forall_impl; [|exact F]. cbn. intros; lia.
  - constructor; auto. rewrite Forall_forall in *. intros z I. apply (Permutation_in _ (insert_int_perm x l)) in I. destruct I as [<-|I]; auto. lia.
Qed.
Lemma sort_ints_sorted l : StronglySorted Z.le (sort_ints l).
Proof. induction l as [|x l IH]; cbn [sort_ints fold_right]; [constructor|]. now apply insert_int_sorted. Qed.

Lemma strictly l : StronglySorted Z.le l -> NoDup l -> StronglySorted Z.lt l.
Proof.
  induction 1 as [|x l S IH F]; intros ND; [constructor|]. inversion ND; subst. constructor; auto.
  rewrite Forall_forall in *. intros y I. specialize (F y I). assert (x <> y) by (intros ->; contradiction). lia.
Qed.

Lemma elem_ok {X} (l : list X) i : 0 <= i < Z.of_nat (length l) -> exists x, nth_error l (Z.to_nat i) = Some x /\ elem l i = Ok x.
Proof.
  intros B. destruct (nth_error_ex l (Z.to_nat i)) as (x & E); [lia|]. exists x. split; auto. unfold elem.
  destruct (Z.ltb_spec i 0); [lia|]. now rewrite E.
Qed.

Lemma subseq_nil {X} (l : list X) : subseq [] l.
Proof. induction l; constructor; auto. Qed.

Lemma elems_ok {A B} (p : list (A * B)) : forall idx, (forall i, In i idx -> 0 <= i < Z.of_nat (length p)) ->
  exists c, elems (map fst p) idx = Ok (map fst c) /\ elems (map snd p) idx = Ok (map snd c) /\
    Forall2 (fun i x => nth_error p (Z.to_nat i) = Some x) idx c.
Proof.
  induction idx as [|i idx IH]; intros IN.
  - exists []. repeat split. constructor.
  - destruct (IH ltac:(intros; apply IN; now right)) as (c & E1 & E2 & F).
    destruct (nth_error_ex p (Z.to_nat i)) as (x & E); [specialize (IN i (or_introl eq_refl)); lia|].
    exists (x :: c). cbn [elems]. assert (NG : (i <? 0) = false) by (apply Z.ltb_ge; apply (IN i (or_introl eq_refl))).
    unfold elem. rewrite NG, !nth_error_map, E. cbn [option_map bind]. rewrite E1, E2. cbn [bind map]. repeat split; auto.
Qed.

Lemma subseq_idx {X} : forall (l : list X) base idx c, StronglySorted Z.lt idx ->
  (forall i, In i idx -> base <= i < base + Z.of_nat (length l)) ->
  Forall2 (fun i x => nth_error l (Z.to_nat (i - base)) = Some x) idx c -> subseq c l.
Proof.
  induction l as [|y l IH]; intros base idx c S B F.
  - destruct idx as [|i idx]; [inversion F; constructor|]. specialize (B i (or_introl eq_refl)). cbn [length] in B. lia.
  - destruct idx as [|i idx]; [inversion F; subst; apply subseq_nil|].
    assert (SH : forall js cs, (forall j, In j js -> base < j) ->
      Forall2 (fun i x => nth_error (y :: l) (Z.to_nat (i - base)) = Some x) js cs ->
      Forall2 (fun i x => nth_error l (Z.to_nat (i - (base + 1))) = Some x) js cs).
    { intros js cs G F2. induction F2 as [|j x js cs E F2 IF]; constructor.
      - replace (Z.to_nat (j - base)) with (Datatypes.S (Z.to_nat (j - (base + 1)))) in E by (specialize (G j (or_introl eq_refl)); lia). exact E.
      - apply IF. intros; apply G; now right. }
    inversion S as [|? ? S' FI]; subst. rewrite Forall_forall in FI.
    destruct (Z.eq_dec i base) as [->|NE].
    + inversion F as [|? x ? c' E F2]; subst. rewrite Z.sub_diag in E. cbn in E. injection E as <-. apply sub_take.
      apply (IH (base + 1) idx); auto.
      intros j I. specialize (FI j I). specialize (B j (or_intror I)). cbn [length] in B. lia.
    + constructor. pose proof (B i (or_introl eq_refl)) as BI.
      assert (G : forall j, In j (i :: idx) -> base < j) by (intros j [<-|I]; [lia|specialize (FI j I); lia]).
      apply (IH (base + 1) (i :: idx)); auto. intros j I. specialize (G j I). specialize (B j I). cbn [length] in B. lia.
Qed.

Section Load.
Variable shuffle : list Z -> list Z.
Hypothesis PERM : forall l, Permutation (shuffle l) l.

Lemma firstn_nodup {X} n (l : list X) : NoDup l -> NoDup (firstn n l).
Proof.
  revert n. induction l as [|x l IH]; intros [|n] ND; cbn [firstn]; try constructor; inversion ND; subst; auto.
  intros I. match goal with N : ~ In x l |- _ => apply N end. rewrite <- (firstn_skipn n l). apply in_app_iff. auto.
Qed.
Lemma firstn_in {X} n (l : list X) x : In x (firstn n l) -> In x l.
Proof. intros I. rewrite <- (firstn_skipn n l). apply in_app_iff. auto. Qed.

Lemma indices_ok n max : 0 <= n -> 0 <= max -> exists idx, pick_random_indices_in_range shuffle n max = Ok idx /\
  Z.of_nat (length idx) = Z.min max n /\ NoDup idx /\ forall i, In i idx -> 0 <= i < n.
Proof.
  intros N M. unfold pick_random_indices_in_range, pick_random_subset.
  destruct (Z.ltb_spec n 0); [lia|]. destruct (Z.ltb_spec max 0); [lia|]. cbn [orb].
  pose proof (PERM (zseq 0 (Z.to_nat n))) as P. set (s := shuffle (zseq 0 (Z.to_nat n))) in *.
  assert (L : length s = Z.to_nat n) by (rewrite (Permutation_length P); apply zseq_length).
  assert (ND : NoDup s) by (apply (Permutation_NoDup (Permutation_sym P)), zseq_nodup).
  assert (IN : forall i, In i s -> 0 <= i < n) by (intros i I; apply (Permutation_in _ P), in_zseq in I; lia).
  destruct (Z.leb_spec (Z.of_nat (length s)) max).
  - exists s. repeat split; auto; try (apply IN; auto). lia.
  - exists (firstn (Z.to_nat max) s). split; [reflexivity|]. split; [rewrite firstn_length; lia|]. split; [now apply firstn_nodup|].
    intros i I. apply IN. eapply firstn_in; eauto.
Qed.

Lemma pair_subset_ok {A B} (p : list (A * B)) max : 0 <= max -> forall idx, Permutation idx idx ->
  NoDup idx -> (forall i, In i idx -> 0 <= i < Z.of_nat (length p)) ->
  exists c, elems (map fst p) (sort_ints idx) = Ok (map fst c) /\ elems (map snd p) (sort_ints idx) = Ok (map snd c) /\
    length c = length idx /\ subseq c p.
Proof.
  intros M idx _ ND IN.
  destruct (elems_ok p (sort_ints idx)) as (c & E1 & E2 & F).
  - intros i I. apply IN. apply (Permutation_in _ (sort_ints_perm idx)), I.
  - exists c. split; auto. split; auto. split.
    + rewrite <- (Permutation_length (sort_ints_perm idx)). symmetry. clear - F. induction F; cbn [length]; auto.
    + apply (subseq_idx p 0 (sort_ints idx)).
      * apply strictly; [apply sort_ints_sorted|]. apply (Permutation_NoDup (Permutation_sym (sort_ints_perm idx)) ND).
      * intros i I. rewrite Z.add_0_l. apply IN. apply (Permutation_in _ (sort_ints_perm idx)), I.
      * clear - F. induction F as [|i x is_ c E F IH]; constructor; auto. now rewrite Z.sub_0_r.
Qed.

Lemma pick_pair_ok {X} (p : list (X * X)) max :
  exists c, pick_pair_subset shuffle (map fst p) (map snd p) max = Ok (map fst c, map snd c) /\
    if (0 <=? max) && (max <? Z.of_nat (length p)) then Z.of_nat (length c) = max /\ subseq c p else c = p.
Proof.
  unfold pick_pair_subset. rewrite map_length. destruct (Z.leb_spec 0 max) as [M|M]; cbn [andb]; [|now exists p].
  destruct (Z.ltb_spec max (Z.of_nat (length p))) as [L|G]; [|now exists p].
  destruct (indices_ok (Z.of_nat (length p)) max) as (idx & -> & LI & ND & IN); [lia|lia|]. cbn [bind].
  destruct (pair_subset_ok p max M idx (Permutation_refl _) ND IN) as (c & -> & -> & LC & S). cbn [bind].
  exists c. split; auto. split; auto. lia.
Qed.

(** ** Features *)

Definition km_set (n : nat) (P : Z * kp -> Prop) (km : kmaps) : Prop :=
  length km = n /\ forall i m, nth_error km i = Some m -> ordered kp_ltb m /\ forall k, In k (map fst m) <-> P (Z.of_nat i, k).

Lemma km_ext n (P Q : Z * kp -> Prop) km : (forall x, P x <-> Q x) -> km_set n P km -> km_set n Q km.
Proof. intros E (L & K). split; auto. intros i m EM. destruct (K i m EM) as (O & M). split; auto. intros k. rewrite <- E. auto. Qed.

Lemma km_step n P km c a : km_set n P km -> 0 <= c < Z.of_nat n ->
  exists km', modify_elem km c (put kp_ltb a 0) = Ok km' /\ km_set n (fun x => P x \/ x = (c, a)) km'.
Proof.
  intros (L & K) B. unfold modify_elem. destruct (elem_ok km c) as (m & E & ->); [lia|]. cbn [bind]. eexists. split; [reflexivity|].
  split; [now rewrite upd_length|]. intros i m' E'. destruct (Nat.eq_dec i (Z.to_nat c)) as [->|N].
  - rewrite upd_eq in E' by lia. injection E' as <-. destruct (K _ _ E) as (O & M). split; [apply put_ordered; auto; apply kp_order|].
    intros k. unfold put. rewrite modify_keys by apply kp_order. rewrite M, Z2Nat.id by lia. split; [intros [->|]; auto|].
    intros [|[= ->]]; auto.
  - rewrite upd_neq in E' by auto. destruct (K _ _ E') as (O & M). split; auto. intros k. rewrite M. split; auto.
    intros [H|[= H _]]; auto. lia.
Qed.

Definition pairs_of (l r : Z) (c : list (kp * kp)) : list ((Z * kp) * (Z * kp)) := map (fun m => ((l, fst m), (r, snd m))) c.

Lemma note_ok n l r : 0 <= l < Z.of_nat n -> 0 <= r < Z.of_nat n -> forall c P km, km_set n P km ->
  exists km', note_keypoints l r (map fst c) (map snd c) km = Ok km' /\
    km_set n (fun x => P x \/ matched (pairs_of l r c) x) km'.
Proof.
  intros BL BR. induction c as [|[a b] c IH]; intros P km K; cbn [map fst snd note_keypoints].
  - exists km. split; auto. eapply km_ext; [|exact K]. intros x. split; auto. intros [|(y & [[]|[]])]; auto.
  - destruct (km_step n P km l a K BL) as (km1 & -> & K1). cbn [bind].
    destruct (km_step n _ km1 r b K1 BR) as (km2 & -> & K2). cbn [bind].
    destruct (IH _ km2 K2) as (km3 & -> & K3). exists km3. split; auto. eapply km_ext; [|exact K3]. intros x.
    cbn [pairs_of map fst snd]. fold (pairs_of l r c). split.
    + intros [[[H| ->]| ->]|(y & H)].
      * auto.
      * right. exists (r, b). left. now left.
      * right. exists (l, a). right. now left.
      * right. exists y. cbn [In]. tauto.
    + intros [H|(y & [[E|I]|[E|I]])]; auto.
      * injection E as <- <-. tauto.
      * right. exists y. auto.
      * injection E as <- <-. tauto.
      * right. exists y. auto.
Qed.

Definition mm_ok (K : list ((Z * kp) * (Z * kp))) (mm : matches) : Prop :=
  ordered zz_ltb mm /\
  (forall l r p1 p2, In ((l, r), (p1, p2)) mm -> l <> r /\ length p1 = length p2) /\
  (forall l a r b, In ((l, a), (r, b)) K <-> exists p1 p2, In ((l, r), (p1, p2)) mm /\ In (a, b) (combine p1 p2)).

Lemma in_put_fresh {K V} (ltb : K -> K -> bool) (O : strict_order ltb) k (v : V) m e : ordered ltb m -> ~ In k (map fst m) ->
  (In e (put ltb k v m) <-> e = (k, v) \/ In e m).
Proof.
  intros S NI. destruct e as [k' v'].
  assert (A : forall m', ordered ltb m' -> (In (k', v') m' <-> get ltb k' m' = Some v')).
  { intros m' S'. split; [now apply in_get|now apply get_in]. }
  rewrite (A _ (put_ordered ltb O k v m S)), (A m S), get_put by auto. destruct (keqb_spec ltb O k' k) as [->|N].
  - apply (get_none ltb O) in NI. rewrite NI. split; [intros [= ->]; auto|intros [[= ->]|X]; [auto|discriminate]].
  - split; auto. intros [[= ? _]|X]; [congruence|auto].
Qed.

Lemma matched_app {X} (l m : list (X * X)) x : matched (l ++ m) x <-> matched l x \/ matched m x.
Proof. unfold matched. split; [intros (y & D); rewrite !in_app_iff in D; destruct D as [[|]|[|]]; eauto|]. intros [(y & D)|(y & D)]; exists y; rewrite !in_app_iff; tauto. Qed.

Lemma safe_good p : safe p = good_scale p.
Proof. destruct p as [[x y] s]. unfold safe, good_scale. destruct (Z.leb_spec s 0), (Z.ltb_spec 0 s); try lia; reflexivity. Qed.

Lemma combine_fst {A B} (l : list A) (m : list B) : length l = length m -> map fst (combine l m) = l /\ map snd (combine l m) = m.
Proof.
  revert m. induction l as [|a l IH]; intros [|b m] E; try discriminate; auto. injection E as E. destruct (IH m E). cbn [combine map fst snd].
  split; congruence.
Qed.
Lemma combine_split' {A B} (c : list (A * B)) : combine (map fst c) (map snd c) = c.
Proof. induction c as [|[a b] c IH]; cbn [map combine fst snd]; congruence. Qed.

Variable min_matches : nat.
Variable max_pairwise : Z.

Lemma load_file_ok n f km mm K : km_set n (matched K) km -> mm_ok K mm ->
  length (fip1 f) = length (fip2 f) -> fleft f <> fright f -> 0 <= fleft f < Z.of_nat n -> 0 <= fright f < Z.of_nat n ->
  ~ In (fleft f, fright f) (map fst mm) ->
  exists c km' mm', load_file shuffle min_matches max_pairwise f (km, mm) = Ok (km', mm') /\ taken min_matches max_pairwise f c /\
    km_set n (matched (K ++ pairs_of (fleft f) (fright f) c)) km' /\ mm_ok (K ++ pairs_of (fleft f) (fright f) c) mm' /\
    (forall k, In k (map fst mm') -> k = (fleft f, fright f) \/ In k (map fst mm)).
Proof.
  intros KM (S & D & MK) LE NE BL BR FR. unfold load_file, taken. destruct (Nat.ltb_spec (length (fip1 f)) min_matches) as [L|G].
  - exists [], km, mm. cbn [pairs_of map]. rewrite app_nil_r. split; auto. split; auto. split; auto. split; [split; auto|]. auto.
  - set (p := file_matches f).
    assert (E12 : map fst p = map safe (fip1 f) /\ map snd p = map safe (fip2 f)).
    { unfold p, file_matches. rewrite !(map_ext safe good_scale safe_good). apply combine_fst. now rewrite !map_length. }
    destruct E12 as (<- & <-).
    assert (LP : length p = length (fip1 f)).
    { unfold p, file_matches. rewrite combine_length, !map_length. lia. }
    rewrite map_length, LP.
    assert (PP : exists c, (if (0 <=? max_pairwise) && (max_pairwise <? Z.of_nat (length (fip1 f)))
        then pick_pair_subset shuffle (map fst p) (map snd p) max_pairwise else Ok (map fst p, map snd p)) = Ok (map fst c, map snd c) /\
      if (0 <=? max_pairwise) && (max_pairwise <? Z.of_nat (length (fip1 f))) then Z.of_nat (length c) = max_pairwise /\ subseq c p else c = p).
    { destruct (pick_pair_ok p max_pairwise) as (c & E & T). rewrite LP in T.
      destruct ((0 <=? max_pairwise) && (max_pairwise <? Z.of_nat (length (fip1 f)))); [exists c; auto|exists p; auto]. }
    destruct PP as (c & -> & T). cbn [bind].
    destruct (note_ok n (fleft f) (fright f) BL BR c _ km KM) as (km' & -> & KM'). cbn [bind].
    exists c, km', (put zz_ltb (fleft f, fright f) (map fst c, map snd c) mm). split; auto. split; auto. split; [|split; [split; [|split]|]].
    + eapply km_ext; [|exact KM']. intros x. symmetry. apply matched_app.
    + apply put_ordered; auto. apply zz_order.
    + intros l r p1 p2 I. apply in_put_fresh in I; auto using zz_order. destruct I as [[= -> -> -> ->]|I]; [|eauto].
      split; auto. now rewrite !map_length.
    + intros l a r b. rewrite in_app_iff, MK. split.
      * intros [(p1 & p2 & I & IC)|I].
        -- exists p1, p2. split; auto. apply in_put_fresh; auto using zz_order.
        -- apply in_map_iff in I. destruct I as ([a' b'] & [= <- <- <- <-] & I). exists (map fst c), (map snd c).
           split; [apply in_put_fresh; auto using zz_order|]. now rewrite combine_split'.
      * intros (p1 & p2 & I & IC). apply in_put_fresh in I; auto using zz_order. destruct I as [[= -> -> -> ->]|I].
        -- right. rewrite combine_split' in IC. unfold pairs_of. apply in_map_iff. exists (a, b). auto.
        -- left. eauto.
    + intros k I. unfold put in I. apply modify_keys in I; auto. apply zz_order.
Qed.

Lemma load_files_ok n : forall fs km mm K, proper n fs -> km_set n (matched K) km -> mm_ok K mm ->
  (forall f, In f fs -> ~ In (fleft f, fright f) (map fst mm)) ->
  exists cs km' mm', load_files shuffle min_matches max_pairwise fs (km, mm) = Ok (km', mm') /\
    Forall2 (taken min_matches max_pairwise) fs cs /\
    km_set n (matched (K ++ all_matches fs cs)) km' /\ mm_ok (K ++ all_matches fs cs) mm'.
Proof.
  induction fs as [|f fs IH]; intros km mm K (ND & PR) KM MM FR; cbn [load_files].
  - exists [], km, mm. unfold all_matches. cbn [combine flat_map]. rewrite app_nil_r. auto.
  - destruct (PR f (or_introl eq_refl)) as (LE & NE & BL & BR).
    destruct (load_file_ok n f km mm K KM MM LE NE BL BR (FR f (or_introl eq_refl))) as (c & km1 & mm1 & -> & T & KM1 & MM1 & KS). cbn [bind].
    cbn [map] in ND. inversion ND as [|? ? NI ND']; subst.
    destruct (IH km1 mm1 (K ++ pairs_of (fleft f) (fright f) c)) as (cs & km2 & mm2 & -> & TS & KM2 & MM2); auto.
    + split; auto. intros; apply PR; now right.
    + intros g I J. apply KS in J. destruct J as [J|J]; [|apply (FR g (or_intror I) J)].
      apply NI. rewrite <- J. apply (in_map (fun f => (fleft f, fright f))), I.
    + exists (c :: cs), km2, mm2. unfold all_matches. cbn [combine flat_map fst snd].
      fold (pairs_of (fleft f) (fright f) c) (all_matches fs cs).
      change (map (fun m : kp * kp => (fleft f, fst m, (fright f, snd m))) c) with (pairs_of (fleft f) (fright f) c).
      rewrite app_assoc. auto.
Qed.
End Load.
