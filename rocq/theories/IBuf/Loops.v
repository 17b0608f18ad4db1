(* All pixels of the conversion. *)
From Coq Require Import ZArith List Bool Lia.
From Verif Require Import Lib.Base IBuf.Model IBuf.Spec IBuf.Mem IBuf.Proofs.
Import ListNotations.
Local Open Scope Z_scope.

Fixpoint foldM {A S : Type} (f : A -> S -> res S) (l : list A) (s : S) : res S :=
  match l with [] => Ok s | x :: l' => s' <- f x s ;; foldM f l' s' end.

Lemma foldM_app {A S} (f : A -> S -> res S) l l' : forall s,
  foldM f (l ++ l') s = (s' <- foldM f l s ;; foldM f l' s').
Proof.
  induction l; intros s; cbn [foldM app]; auto.
  rewrite bind_assoc. apply bind_ext. intros; apply IHl.
Qed.
Lemma loop_fold {S} (f : Z -> S -> res S) n : forall a s, loop n a f s = foldM f (zseq a n) s.
Proof.
  induction n; intros a s; cbn [loop zseq foldM]; auto. apply bind_ext. intros; apply IHn.
Qed.
Lemma for_up_fold {S} (f : Z -> S -> res S) a b s : for_up a b f s = foldM f (zrange a b) s.
Proof. apply loop_fold. Qed.
Lemma foldM_ext {A S} (f g : A -> S -> res S) l : (forall x s, In x l -> f x s = g x s) ->
  forall s, foldM f l s = foldM g l s.
Proof.
  induction l; intros H s; cbn [foldM]; auto. rewrite H by (left; auto).
  apply bind_ext. intros; apply IHl. intros; apply H. right; auto.
Qed.
Lemma foldM_flat_map {A B S} (f : B -> S -> res S) (g : A -> list B) l : forall s,
  foldM (fun x s => foldM f (g x) s) l s = foldM f (flat_map g l) s.
Proof.
  induction l; intros s; cbn [foldM flat_map]; auto.
  rewrite foldM_app. apply bind_ext. intros; apply IHl.
Qed.
Lemma foldM_map {A B S} (f : B -> S -> res S) (g : A -> B) l : forall s,
  foldM (fun x s => f (g x) s) l s = foldM f (map g l) s.
Proof. induction l; intros s; cbn [foldM map]; auto. apply bind_ext. intros; apply IHl. Qed.

Definition triples (P R C : Z) : list (Z * Z * Z) :=
  flat_map (fun k => flat_map (fun r => map (fun c => (k, r, c)) (zrange 0 C)) (zrange 0 R)) (zrange 0 P).
Lemma in_triples P R C k r c :
  In (k, r, c) (triples P R C) <-> 0 <= k < P /\ 0 <= r < R /\ 0 <= c < C.
Proof.
  unfold triples. rewrite in_flat_map. split.
  - intros (k' & Ik & I). apply in_flat_map in I as (r' & Ir & I).
    apply in_map_iff in I as (c' & E & Ic). injection E as -> -> ->.
    rewrite in_zrange in Ik, Ir, Ic. auto.
  - intros (Hk & Hr & Hc). exists k. rewrite in_zrange. split; auto.
    apply in_flat_map. exists r. rewrite in_zrange. split; auto.
    apply in_map_iff. exists c. rewrite in_zrange. auto.
Qed.
Lemma nested_fold {S} (f : Z -> Z -> Z -> S -> res S) P R C s :
  for_up 0 P (fun k s => for_up 0 R (fun r s => for_up 0 C (fun c s => f k r c s) s) s) s
  = foldM (fun q s => let '(k, r, c) := q in f k r c s) (triples P R C) s.
Proof.
  rewrite for_up_fold. unfold triples. rewrite <- foldM_flat_map. apply foldM_ext. intros k s1 _.
  rewrite for_up_fold, <- foldM_flat_map. apply foldM_ext. intros r s2 _.
  rewrite for_up_fold, <- foldM_map. reflexivity.
Qed.

Section L.
Variable fo : fops.

Lemma make_plan_ok d s rs p : make_plan d s rs = Ok p ->
  0 < nchan0 (fpix s) /\ 0 < nchan0 (fpix d) /\
  in_table (fchan s) = true /\ in_table (fchan d) = true /\
  p = mkplan (fchan s) (fchan d) (nchan0 (fpix s)) (nchan0 (fpix d)) rs
          (src_alpha d s && fpre s && negb (fpre d))
          (src_alpha d s && negb (dst_alpha d) && negb (fpre s))
          (src_alpha d s && dst_alpha d && negb (fpre s) && fpre d).
Proof.
  unfold make_plan, nchan, csize. intros H.
  destruct (0 <? nchan0 (fpix s)) eqn:E1; cbn [bind] in H; [|discriminate].
  destruct (0 <? nchan0 (fpix d)) eqn:E2; cbn [bind] in H; [|discriminate].
  destruct (0 <? csize0 (fchan s)) eqn:E3; cbn [bind] in H; [|discriminate].
  destruct (0 <? csize0 (fchan d)) eqn:E4; cbn [bind] in H; [|discriminate].
  destruct (in_table (fchan s)) eqn:E5, (in_table (fchan d)) eqn:E6; cbn [andb] in H; try discriminate.
  injection H as <-. apply Z.ltb_lt in E1, E2. auto.
Qed.

Lemma in_table_size t : in_table t = true -> 0 < csize0 t.
Proof. destruct t; cbn; intros; try discriminate; lia. Qed.

Lemma make_plan_total d s rs : 0 < nchan0 (fpix s) -> 0 < nchan0 (fpix d) ->
  in_table (fchan s) = true -> in_table (fchan d) = true -> exists p, make_plan d s rs = Ok p.
Proof.
  intros H1 H2 H3 H4. unfold make_plan, nchan, csize.
  apply Z.ltb_lt in H1, H2. rewrite H1, H2. cbn [bind].
  pose proof (in_table_size _ H3) as S1. pose proof (in_table_size _ H4) as S2.
  apply Z.ltb_lt in S1, S2. rewrite S1, S2. cbn [bind]. rewrite H3, H4. cbn [andb]. eauto.
Qed.

Definition qaddr (b : buffer) (q : Z * Z * Z) : Z := let '(k, r, c) := q in addr b k r c.
Definition qpix (m : list Z) (b : buffer) (q : Z * Z * Z) : list Z :=
  let '(k, r, c) := q in pixel_at m b k r c.

Lemma run p sm src dst : good p ->
  sct p = fchan (bfmt src) -> dct p = fchan (bfmt dst) ->
  sn p = nchan0 (fpix (bfmt src)) -> dn p = nchan0 (fpix (bfmt dst)) ->
  bytes_ok sm ->
  forall L dm, bytes_ok dm ->
  (forall q, In q L -> 0 <= qaddr src q /\ qaddr src q + pixel_size src <= Z.of_nat (length sm)) ->
  (forall q, In q L -> 0 <= qaddr dst q /\ qaddr dst q + pixel_size dst <= Z.of_nat (length dm)) ->
  (forall q q', In q L -> In q' L -> q <> q' ->
     qaddr dst q + pixel_size dst <= qaddr dst q' \/ qaddr dst q' + pixel_size dst <= qaddr dst q) ->
  let body := foldM (fun q dm => pixel fo p sm (qaddr src q) (qaddr dst q) dm) L dm in
  ((forall q, In q L -> exists ys, px fo p (qpix sm src q) = Ok ys) ->
   exists dm', body = Ok dm' /\ length dm' = length dm /\ bytes_ok dm' /\
     (forall q, In q L -> px fo p (qpix sm src q) = Ok (qpix dm' dst q)) /\
     (forall x, 0 <= x ->
        (forall q, In q L -> ~ (qaddr dst q <= x < qaddr dst q + pixel_size dst)) ->
        byte dm' x = byte dm x)) /\
  (forall dm', body = Ok dm' -> forall q, In q L -> exists ys, px fo p (qpix sm src q) = Ok ys).
Proof.
  intros G Es Ed Ns Nd BS L dm BD. cbv zeta.
  assert (SZs : pixel_size src = sn p * csize0 (sct p)) by (unfold pixel_size; rewrite Ns, Es; reflexivity).
  assert (SZd : pixel_size dst = dn p * csize0 (dct p)) by (unfold pixel_size; rewrite Nd, Ed; reflexivity).
  assert (QS : forall q, qpix sm src q =
    map (fun i => value (sct p) sm (qaddr src q + i * csize0 (sct p))) (zrange 0 (sn p))).
  { intros [[k r] c]. cbn [qpix qaddr]. unfold pixel_at. rewrite Ns, Es. reflexivity. }
  assert (QD : forall m q, qpix m dst q =
    map (fun i => value (dct p) m (qaddr dst q + i * csize0 (dct p))) (zrange 0 (dn p))).
  { intros m [[k r] c]. cbn [qpix qaddr]. unfold pixel_at. rewrite Nd, Ed. reflexivity. }
  pose proof G as (P1 & P2 & P3 & T1 & T2).
  pose proof (in_table_size _ T1) as C1. pose proof (in_table_size _ T2) as C2.
  induction L as [|q L IH] using rev_ind; intros FS FD AP.
  - split.
    + intros _. exists dm. cbn [foldM]. do 3 (split; auto). split; [intros q []|auto].
    + intros dm' _ q [].
  - assert (IH' := IH (fun x I => FS x (in_or_app _ _ _ (or_introl I)))
                      (fun x I => FD x (in_or_app _ _ _ (or_introl I)))
                      (fun x y I J => AP x y (in_or_app _ _ _ (or_introl I)) (in_or_app _ _ _ (or_introl J)))).
    clear IH. destruct IH' as [IH1 IH2].
    assert (IQ : In q (L ++ [q])) by (apply in_or_app; right; left; reflexivity).
    destruct (FS q IQ) as [Fs1 Fs2]. destruct (FD q IQ) as [Fd1 Fd2].
    rewrite SZs in Fs2. rewrite SZd in Fd2.
    rewrite foldM_app. cbn [foldM].
    assert (STEP : forall m, bytes_ok m -> length m = length dm ->
      pixel fo p sm (qaddr src q) (qaddr dst q) m =
        (ys <- px fo p (qpix sm src q) ;; Ok (splice m (Z.to_nat (qaddr dst q)) (px_bytes (dct p) ys)))).
    { intros m Bm Lm. apply pixel_eq; auto. rewrite Lm. auto. }
    split.
    + intros H. destruct IH1 as (m & E & Lm & Bm & V & U).
      { intros; apply H. apply in_or_app; left; auto. }
      rewrite E. cbn [bind]. rewrite STEP by auto.
      destruct (H q IQ) as (ys & Ey). rewrite Ey. cbn [bind].
      assert (Xl : Z.of_nat (length (qpix sm src q)) = sn p)
        by (rewrite QS, map_length, zrange_length; lia).
      assert (Xv : Forall (okv (sct p)) (qpix sm src q)).
      { rewrite QS. apply Forall_forall. intros x I. apply in_map_iff in I as (i & <- & I).
        apply in_zrange in I. apply value_okv; auto; nia. }
      destruct (px_shape fo p _ _ G Xl Xv Ey) as [Ly Vy].
      set (m2 := splice m (Z.to_nat (qaddr dst q)) (px_bytes (dct p) ys)).
      assert (LP : (Z.to_nat (qaddr dst q) + length (px_bytes (dct p) ys) <= length m)%nat)
        by (rewrite px_bytes_length; nia).
      assert (PB : Z.of_nat (length (px_bytes (dct p) ys)) = pixel_size dst)
        by (rewrite px_bytes_length, SZd; nia).
      exists m2. split; [reflexivity|]. split; [|split; [|split]].
      * unfold m2. rewrite splice_length; auto.
      * unfold m2. apply bytes_splice; auto. apply px_bytes_ok.
      * assert (VQ : px fo p (qpix sm src q) = Ok (qpix m2 dst q)).
        { rewrite Ey. f_equal. rewrite QD. rewrite <- Ly. symmetry. unfold m2.
          apply pixel_stored; auto. rewrite Ly, Lm. auto. }
        intros q' I. apply in_app_or in I as [I|[<-|[]]]; [|exact VQ].
        assert (DEC : {q' = q} + {q' <> q}) by (repeat (decide equality; try apply Z.eq_dec)).
        destruct DEC as [->|NQ]; [exact VQ|].
        rewrite (V q' I). f_equal. rewrite !QD. apply map_ext_in. intros i Ii. apply in_zrange in Ii.
        assert (IQ' : In q' (L ++ [q])) by (apply in_or_app; left; auto).
        destruct (FD q' IQ') as [Fq1 Fq2]. rewrite SZd in Fq2.
        apply value_ext; [nia|]. intros x Hx. symmetry. unfold m2. apply byte_splice; auto; [nia|].
        rewrite PB, Z2Nat.id by auto. rewrite SZd.
        destruct (AP q q' IQ IQ' (not_eq_sym NQ)) as [AP'|AP']; rewrite SZd in AP'; nia.
      * intros x Hx N. unfold m2. rewrite byte_splice; auto.
        -- apply U; auto. intros q' I. apply N. apply in_or_app; left; auto.
        -- rewrite PB, Z2Nat.id by auto. apply N; auto.
    + intros dm' H. apply bind_ok in H as (m & E & H).
      assert (IHx := IH2 _ E). destruct (IH1 IHx) as (m1 & E1 & Lm & Bm & _). rewrite E in E1.
      injection E1 as <-. rewrite STEP in H by auto.
      intros q' I. apply in_app_or in I as [I|[<-|[]]]; auto.
      destruct (px fo p (qpix sm src q)); cbn [bind] in H; try discriminate. eauto.
Qed.

(* The loop over planes, rows and columns. *)
Theorem convert_pixels_spec dm dst sm src rs p :
  make_plan (bfmt dst) (bfmt src) rs = Ok p -> good p ->
  fplanes (bfmt dst) = fplanes (bfmt src) -> frows (bfmt dst) = frows (bfmt src) ->
  fcols (bfmt dst) = fcols (bfmt src) ->
  bytes_ok sm -> bytes_ok dm -> fits sm src -> fits dm dst -> apart dst ->
  ((forall k r c, in_buffer src k r c -> exists ys, px fo p (pixel_at sm src k r c) = Ok ys) ->
   exists dm', convert_pixels fo dm dst sm src rs = Ok dm' /\ length dm' = length dm /\ bytes_ok dm' /\
     (forall k r c, in_buffer src k r c ->
        px fo p (pixel_at sm src k r c) = Ok (pixel_at dm' dst k r c)) /\
     (forall x, 0 <= x -> ~ covers dst x -> byte dm' x = byte dm x)) /\
  (forall dm', convert_pixels fo dm dst sm src rs = Ok dm' ->
     forall k r c, in_buffer src k r c -> exists ys, px fo p (pixel_at sm src k r c) = Ok ys).
Proof.
  intros MP G EP ER EC BS BD FS FD AP.
  destruct (make_plan_ok _ _ _ _ MP) as (_ & _ & _ & _ & PE).
  set (Lq := triples (fplanes (bfmt src)) (frows (bfmt src)) (fcols (bfmt src))).
  assert (CE : convert_pixels fo dm dst sm src rs =
    foldM (fun q dm => pixel fo p sm (qaddr src q) (qaddr dst q) dm) Lq dm).
  { unfold convert_pixels. rewrite MP. cbn [bind]. rewrite nested_fold. fold Lq.
    apply foldM_ext. intros [[k r] c] s _. reflexivity. }
  rewrite CE. clear CE.
  assert (IB : forall k r c, In (k, r, c) Lq <-> in_buffer src k r c)
    by (intros; apply in_triples).
  assert (IBd : forall k r c, in_buffer src k r c <-> in_buffer dst k r c)
    by (intros; unfold in_buffer; rewrite EP, ER, EC; tauto).
  assert (R := run p sm src dst G ltac:(rewrite PE; reflexivity) ltac:(rewrite PE; reflexivity)
    ltac:(rewrite PE; reflexivity) ltac:(rewrite PE; reflexivity) BS Lq dm BD).
  cbv zeta in R. destruct R as [R1 R2].
  - intros [[k r] c] I. apply IB in I. apply FS; auto.
  - intros [[k r] c] I. apply IB in I. apply FD. apply IBd; auto.
  - intros [[k r] c] [[k' r'] c'] I I' N. apply IB in I, I'. cbn [qaddr]. apply AP; auto; apply IBd; auto.
  - split.
    + intros H. destruct R1 as (dm' & E & Ln & Bn & V & U).
      { intros [[k r] c] I. apply IB in I. apply H; auto. }
      exists dm'. split; auto. split; auto. split; auto. split.
      * intros k r c I. apply IB in I. apply (V _ I).
      * intros x Hx N. apply U; auto. intros [[k r] c] I B. apply N.
        exists k, r, c. apply IB in I. split; [apply IBd; auto|exact B].
    + intros dm' H k r c I. apply IB in I. apply (R2 _ H _ I).
Qed.
End L.
