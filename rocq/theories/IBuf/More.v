(* Formats, aliasing of channels as planes, and exact conversions. *)
From Coq Require Import ZArith List Bool Lia.
From Verif Require Import Lib.Base IBuf.Model IBuf.Spec IBuf.Mem IBuf.Proofs IBuf.Loops.
Import ListNotations.
Local Open Scope Z_scope.

Lemma pfeqb_spec a b : reflect (a = b) (pfeqb a b).
Proof. unfold pfeqb. destruct (pformat_eq_dec a b); constructor; auto. Qed.
Lemma cteqb_spec a b : reflect (a = b) (cteqb a b).
Proof. unfold cteqb. destruct (ctype_eq_dec a b); constructor; auto. Qed.
Lemma pfeqb_refl a : pfeqb a a = true.
Proof. destruct (pfeqb_spec a a); auto. Qed.

Lemma core_colour f : core_format f = true <-> colour f.
Proof. destruct f; cbn; split; intros H; try discriminate; try constructor; try inversion H; auto. Qed.
Lemma twin_pair a b : generic_pair a b = true <-> twin a b.
Proof.
  split.
  - destruct a, b; cbn [generic_pair]; intros H; try discriminate; try constructor;
      apply Z.eqb_eq in H; subst; constructor.
  - intros []; reflexivity.
Qed.
Lemma accepted_spec d s : compatible d s <-> (d = s \/ accepted d s = true).
Proof.
  unfold accepted. rewrite !orb_true_iff, andb_true_iff, !core_colour, !twin_pair. split.
  - intros [E|C1 C2|[T|T]]; auto.
  - intros [E|[[T|T]|[C1 C2]]].
    + apply comp_same; auto.
    + apply comp_twin; auto.
    + apply comp_twin; auto.
    + apply comp_colour; auto.
Qed.
Lemma numeric_table t : numeric t <-> in_table t = true.
Proof. split; [intros []; reflexivity|destruct t; cbn; intros; try discriminate; constructor]. Qed.

Lemma accepted_channels d s : accepted d s = true ->
  d <> PScalar /\ s <> PScalar /\ 0 < nchan0 d <= 4 /\ 0 < nchan0 s <= 4.
Proof.
  unfold accepted. rewrite !orb_true_iff, andb_true_iff, !core_colour, !twin_pair.
  intros [[T|T]|[C1 C2]]; [destruct T|destruct T|destruct C1, C2]; cbn; repeat split; try discriminate; lia.
Qed.

Lemma compatible_channels d s : compatible d s -> 0 < nchan0 s ->
  0 < nchan0 d /\ (nchan0 s = nchan0 d \/ (nchan0 s <= 4 /\ nchan0 d <= 4)).
Proof.
  intros C H. apply accepted_spec in C as [->|A]; auto.
  apply accepted_channels in A. lia.
Qed.

Section M.
Variable fo : fops.

(* convert of compatible buffers is the loop. *)
Lemma convert_direct dm dst sm src rs :
  same_size (bfmt dst) (bfmt src) -> compatible (fpix (bfmt dst)) (fpix (bfmt src)) ->
  convert fo dm dst sm src rs = convert_pixels fo dm dst sm src rs.
Proof.
  intros [E1 E2] C. unfold convert. cbv zeta. rewrite E1, E2, !Z.eqb_refl. cbn [andb].
  apply accepted_spec in C as [C|C].
  - rewrite C, pfeqb_refl. reflexivity.
  - destruct (pfeqb_spec (fpix (bfmt dst)) (fpix (bfmt src))) as [E|NE]; auto.
    destruct (accepted_channels _ _ C) as (N1 & N2 & _).
    destruct (pfeqb_spec (fpix (bfmt src)) PScalar); [contradiction|]. cbn [andb bind].
    destruct (pfeqb_spec (fpix (bfmt dst)) PScalar); [contradiction|]. cbn [andb bind].
    rewrite C. reflexivity.
Qed.

Lemma recolor_same cv mean top xs n : Z.of_nat (length xs) = n -> recolor cv mean top xs n = mapM cv xs.
Proof. intros E. unfold recolor. rewrite E, Z.eqb_refl. reflexivity. Qed.

Lemma px_converted d s rs p xs : alpha_tested d s -> make_plan d s rs = Ok p ->
  px fo p xs = converted fo d s rs xs.
Proof.
  intros AT MP. destruct (make_plan_ok _ _ _ _ MP) as (_ & _ & _ & _ & ->).
  unfold px, stage1, converted. cbn [sct dct sn dn resc unpre_src pre_src pre_dst].
  set (rec := fun xs => recolor (conv fo (fchan s) (fchan d) rs) (average fo (fchan d)) (set_max (fchan d)) xs (nchan0 (fpix d))).
  assert (RX : forall ys, recolor (conv fo (fchan s) (fchan d) rs) (average fo (fchan d)) (set_max (fchan d)) ys (nchan0 (fpix d)) = rec ys) by reflexivity.
  assert (RET : forall m : res (list Z), (zs <- m ;; Ok zs) = m) by (intros []; reflexivity).
  assert (SA : src_alpha d s = true -> has_alpha (fpix s) = true \/ fpix d = PRGBA).
  { unfold src_alpha. destruct (pfeqb_spec (fpix s) PGrayA) as [E|_]; [rewrite E; auto|].
    destruct (pfeqb_spec (fpix d) PRGBA); auto; discriminate. }
  assert (DA : dst_alpha d = has_alpha (fpix d)).
  { unfold dst_alpha. destruct (fpix d); reflexivity. }
  destruct AT as [[EP H]|[H|H]].
  - rewrite EP. rewrite DA.
    replace (src_alpha d s && fpre d && negb (fpre d)) with false
      by (destruct (src_alpha d s), (fpre d); reflexivity).
    replace (src_alpha d s && has_alpha (fpix d) && negb (fpre d) && fpre d) with false
      by (destruct (src_alpha d s), (fpre d), (has_alpha (fpix d)); reflexivity).
    replace (src_alpha d s && negb (has_alpha (fpix d)) && negb (fpre d)) with false.
    + cbn [bind]. rewrite RET, RX. rewrite EP in H.
      destruct (has_alpha (fpix s)); auto. destruct (fpre d); auto.
      destruct H as [H|[H|H]]; try discriminate. rewrite H. reflexivity.
    + destruct (src_alpha d s) eqn:ES; auto. destruct (has_alpha (fpix d)) eqn:ED; auto.
      destruct (fpre d) eqn:EE; auto. rewrite EP in H. exfalso.
      destruct H as [H|[H|H]]; try congruence.
      destruct (SA eq_refl) as [X|X]; [congruence|]. rewrite X in ED. discriminate.
  - assert (ES : src_alpha d s = true) by (unfold src_alpha; rewrite H; reflexivity).
    rewrite ES, DA, H. cbn [has_alpha].
    destruct (fpre s), (fpre d), (has_alpha (fpix d)); cbn [andb negb bind]; rewrite ?RX, ?RET; auto;
      apply bind_ext; intros; rewrite RX, RET; reflexivity.
  - assert (ES : src_alpha d s = has_alpha (fpix s)).
    { unfold src_alpha. destruct (pfeqb_spec (fpix s) PGrayA) as [E|N1]; [rewrite E; reflexivity|].
      destruct (pfeqb_spec (fpix d) PRGBA) as [E|N2].
      - rewrite (proj2 H E). reflexivity.
      - destruct (fpix s); try reflexivity; [congruence|]. exfalso. apply N2. apply H. reflexivity. }
    rewrite ES, DA.
    destruct (has_alpha (fpix s)), (fpre s), (fpre d), (has_alpha (fpix d)); cbn [andb negb bind]; rewrite ?RX, ?RET; auto;
      apply bind_ext; intros; rewrite RX, RET; reflexivity.
Qed.

Theorem direct_spec dm dst sm src rs :
  direct dm dst sm src -> alpha_tested (bfmt dst) (bfmt src) ->
  ((forall k r c, in_buffer src k r c ->
      exists ys, converted fo (bfmt dst) (bfmt src) rs (pixel_at sm src k r c) = Ok ys) ->
   exists dm', convert fo dm dst sm src rs = Ok dm' /\ length dm' = length dm /\ bytes_ok dm' /\
     (forall k r c, in_buffer src k r c ->
        converted fo (bfmt dst) (bfmt src) rs (pixel_at sm src k r c) = Ok (pixel_at dm' dst k r c)) /\
     (forall x, 0 <= x -> ~ covers dst x -> byte dm' x = byte dm x)) /\
  (forall dm', convert fo dm dst sm src rs = Ok dm' ->
     forall k r c, in_buffer src k r c ->
       exists ys, converted fo (bfmt dst) (bfmt src) rs (pixel_at sm src k r c) = Ok ys).
Proof.
  intros [C K ND NS SZ PL BS BD FS FD AP] AT.
  destruct (compatible_channels _ _ C K) as [KD KC].
  destruct (make_plan_total (bfmt dst) (bfmt src) rs K KD) as [p MP];
    [apply numeric_table; auto|apply numeric_table; auto|].
  rewrite convert_direct by auto. destruct SZ as [E1 E2].
  assert (G : good p).
  { destruct (make_plan_ok _ _ _ _ MP) as (_ & _ & T1 & T2 & ->).
    unfold good. cbn [sct dct sn dn]. auto 6. }
  destruct (convert_pixels_spec fo dm dst sm src rs p MP G PL E2 E1 BS BD FS FD AP) as [R1 R2].
  split.
  - intros H. destruct R1 as (dm' & E & Ln & Bn & V & U).
    { intros. rewrite (px_converted _ _ _ _ _ AT MP). auto. }
    exists dm'. do 3 (split; [auto|]). split; auto.
    intros. rewrite <- (px_converted _ _ _ _ _ AT MP). auto.
  - intros dm' H k r c I. rewrite <- (px_converted _ _ _ _ _ AT MP). eauto.
Qed.

(* when it succeeds *)
Corollary direct_result dm dst sm src rs dm' :
  direct dm dst sm src -> alpha_tested (bfmt dst) (bfmt src) ->
  convert fo dm dst sm src rs = Ok dm' ->
  length dm' = length dm /\ bytes_ok dm' /\
  (forall k r c, in_buffer src k r c ->
     converted fo (bfmt dst) (bfmt src) rs (pixel_at sm src k r c) = Ok (pixel_at dm' dst k r c)) /\
  (forall x, 0 <= x -> ~ covers dst x -> byte dm' x = byte dm x).
Proof.
  intros D AT E. destruct (direct_spec dm dst sm src rs D AT) as [R1 R2].
  destruct (R1 (R2 _ E)) as (m & E' & H). rewrite E in E'. injection E' as <-. exact H.
Qed.

(* ---- channels as planes ---- *)
Lemma as_planes_addr b n s k r c : addr (as_planes b n s) k r c = addr b 0 r c + k * s.
Proof. unfold addr, as_planes. cbn [bdata bps brs bcs]. lia. Qed.
Lemma as_planes_size b n s : pixel_size (as_planes b n s) = csize0 (fchan (bfmt b)).
Proof. unfold pixel_size, as_planes. cbn [bfmt fpix fchan nchan0]. lia. Qed.

Lemma as_planes_fits m b n : fits m b -> fplanes (bfmt b) = 1 -> n = nchan0 (fpix (bfmt b)) ->
  fits m (as_planes b n (csize0 (fchan (bfmt b)))).
Proof.
  intros F P N k r c I. rewrite as_planes_addr, as_planes_size.
  unfold in_buffer, as_planes in I. cbn [bfmt fplanes frows fcols] in I.
  destruct (F 0 r c) as [F1 F2]; [unfold in_buffer; rewrite P; lia|].
  unfold pixel_size in F2. pose proof (csize0_nonneg (fchan (bfmt b))). subst n. nia.
Qed.
Lemma as_planes_apart b n : apart b -> fplanes (bfmt b) = 1 -> n = nchan0 (fpix (bfmt b)) ->
  apart (as_planes b n (csize0 (fchan (bfmt b)))).
Proof.
  intros A P N k r c k' r' c' I I' NE. rewrite !as_planes_addr, !as_planes_size.
  unfold in_buffer, as_planes in I, I'. cbn [bfmt fplanes frows fcols] in I, I'.
  pose proof (csize0_nonneg (fchan (bfmt b))) as C.
  assert (D : (r = r' /\ c = c') \/ (0, r, c) <> (0, r', c')).
  { destruct (Z.eq_dec r r'), (Z.eq_dec c c'); auto; right; congruence. }
  destruct D as [[-> ->]|D].
  - assert (k <> k') by congruence. assert (k < k' \/ k' < k) by lia. nia.
  - destruct (A 0 r c 0 r' c') as [H|H]; auto; try (unfold in_buffer; rewrite P; lia);
      unfold pixel_size in H; subst n; nia.
Qed.

Lemma as_planes_covers b n x : 0 < csize0 (fchan (bfmt b)) -> fplanes (bfmt b) = 1 ->
  n = nchan0 (fpix (bfmt b)) ->
  covers (as_planes b n (csize0 (fchan (bfmt b)))) x -> covers b x.
Proof.
  intros C P N (k & r & c & I & B). rewrite as_planes_addr, as_planes_size in B.
  unfold in_buffer, as_planes in I. cbn [bfmt fplanes frows fcols] in I.
  exists 0, r, c. split; [unfold in_buffer; rewrite P; lia|]. unfold pixel_size. subst n. nia.
Qed.

Lemma as_planes_pixel m b n k r c : n = nchan0 (fpix (bfmt b)) -> 0 <= k < n ->
  pixel_at m (as_planes b n (csize0 (fchan (bfmt b)))) k r c = [nth (Z.to_nat k) (pixel_at m b 0 r c) 0].
Proof.
  intros N Hk. unfold pixel_at at 1. rewrite as_planes_addr. cbn [as_planes bfmt fpix fchan nchan0].
  change (zrange 0 1) with [0]. cbn [map]. f_equal. rewrite Z.mul_0_l, Z.add_0_r.
  unfold pixel_at. rewrite <- N.
  rewrite (nth_indep _ 0 (value (fchan (bfmt b)) m (addr b 0 r c + 0 * csize0 (fchan (bfmt b)))))
    by (rewrite map_length, zrange_length; lia).
  rewrite (map_nth (fun i => value (fchan (bfmt b)) m (addr b 0 r c + i * csize0 (fchan (bfmt b))))).
  unfold zrange. rewrite zseq_nth by lia. do 2 f_equal. f_equal. lia.
Qed.

(* ---- exact copies ---- *)
Lemma value_mod t m a : bytes_ok m -> 0 <= a -> a + csize0 t <= Z.of_nat (length m) ->
  value t m a mod 2 ^ (8 * csize0 t) = of_bytes (slice m (Z.to_nat a) (Z.to_nat (csize0 t))).
Proof.
  intros B Ha Hl. rewrite value_norm by auto. rewrite norm_mod. apply Z.mod_small.
  pose proof (csize0_nonneg t) as C.
  pose proof (of_bytes_range _ (bytes_slice m (Z.to_nat a) (Z.to_nat (csize0 t)) B)) as R.
  rewrite slice_length in R by lia. rewrite Z2Nat.id in R by lia. exact R.
Qed.
Lemma value_bytes t m a m' a' : bytes_ok m -> bytes_ok m' -> 0 <= a -> 0 <= a' ->
  a + csize0 t <= Z.of_nat (length m) -> a' + csize0 t <= Z.of_nat (length m') ->
  value t m a = value t m' a' -> forall i, 0 <= i < csize0 t -> byte m (a + i) = byte m' (a' + i).
Proof.
  intros B B' Ha Ha' Hl Hl' E i Hi.
  assert (S : slice m (Z.to_nat a) (Z.to_nat (csize0 t)) = slice m' (Z.to_nat a') (Z.to_nat (csize0 t))).
  { rewrite <- (to_of_bytes (slice m _ _)) by (apply bytes_slice; auto).
    rewrite <- (to_of_bytes (slice m' _ _)) by (apply bytes_slice; auto).
    rewrite <- !value_mod by auto. rewrite E. rewrite !slice_length by lia. reflexivity. }
  unfold byte. rewrite !Z2Nat.inj_add by lia.
  rewrite <- (nth_slice m (Z.to_nat a) (Z.to_nat (csize0 t))) by lia.
  rewrite S. apply nth_slice. lia.
Qed.

Lemma conv_same t rs v : okv t v -> numeric t -> conv fo t t rs v = Ok v.
Proof.
  intros V N. unfold conv.
  destruct N; cbn [int_type]; unfold cteqb;
    repeat match goal with |- context [ctype_eq_dec ?a ?b] => destruct (ctype_eq_dec a b) as [?|?]; try discriminate; try congruence end;
    rewrite ?andb_false_r; cbn [andb]; rewrite ?V; try reflexivity.
Qed.
Lemma mapM_id f l : (forall x, In x l -> f x = Ok x) -> mapM f l = Ok l.
Proof.
  intros H. rewrite (mapM_ok f (fun x => x)) by auto. rewrite map_id. reflexivity.
Qed.

Lemma pixel_okv m b k r c : bytes_ok m -> fits m b -> in_buffer b k r c ->
  Forall (okv (fchan (bfmt b))) (pixel_at m b k r c).
Proof.
  intros B F I. destruct (F k r c I) as [F1 F2]. unfold pixel_size in F2.
  unfold pixel_at. apply Forall_forall. intros x Ix. apply in_map_iff in Ix as (i & <- & Ii).
  apply in_zrange in Ii. pose proof (csize0_nonneg (fchan (bfmt b))). apply value_okv; auto; nia.
Qed.
Lemma pixel_length m b k r c : length (pixel_at m b k r c) = Z.to_nat (nchan0 (fpix (bfmt b))).
Proof. unfold pixel_at. rewrite map_length, zrange_length. f_equal. lia. Qed.
Lemma nchan0_nonneg f : 0 <= nchan0 f.
Proof.
  destruct f; cbn; try lia. destruct (Z.leb_spec 1 n); cbn [andb]; try lia.
  destruct (n <=? 13); lia.
Qed.
End M.
