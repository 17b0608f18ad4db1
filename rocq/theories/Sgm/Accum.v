(* The layout of the large buffers and the sum over the eight directions. *)
From Coq Require Import ZArith List Bool Lia.
From Verif Require Import Lib.Base Lib.Lists ImgMem.Model ImgMem.Spec Lib.Img
  Sgm.Model Sgm.Spec Sgm.Mem Sgm.Proofs Sgm.Pass Sgm.Lines Sgm.Par.
Import ListNotations.
Local Open Scope Z_scope.

Lemma app_same_len {A} (a : list A) : forall b c d, a ++ b = c ++ d -> length a = length c -> a = c.
Proof.
  induction a as [|x a IH]; intros b [|y c] d E Hl; cbn [length app] in *; try lia; auto.
  injection E as -> E. f_equal. eapply IH; eauto.
Qed.

Section A.
Variable g : sgm.
Hypothesis G : sgm_ok g.
Notation w := (ocols g).
Notation h := (orows g).
Let R := range g.

Definition rank (p : Z * Z) : Z := snd p * w + fst p.
Lemma rank_inj p q : inimg g p -> inimg g q -> rank p = rank q -> p = q.
Proof.
  unfold inimg, rank. destruct p as [a b], q as [c d]. cbn [fst snd]. intros [? ?] [? ?] E.
  assert (b = d) by nia. subst. f_equal. lia.
Qed.

Definition layout (starts : img Z) (main : Z) : Prop :=
  icols starts = w /\ irows starts = h /\
  (forall p, inimg g p -> 0 <= pstart starts p /\ pstart starts p + psize g p <= main) /\
  (forall p q, inimg g p -> inimg g q -> rank p < rank q -> pstart starts p + psize g p <= pstart starts q).

Lemma calc_ok : exists starts main, calc_main_buf_size g = Ok (starts, main) /\ layout starts main /\ 6 <= main.
Proof.
  assert (GW : 0 < w /\ 0 < h /\ icols (bnd g) = w /\ irows (bnd g) = h)
    by (destruct G as (_ & _ & _ & _ & ? & ? & ? & ? & _); auto).
  destruct GW as (W1 & W2 & W3 & W4).
  pose (P := fun (n : Z) (s : img Z * Z) => icols (fst s) = w /\ irows (fst s) = h /\ 0 <= snd s /\
    (forall p, inimg g p -> rank p < n -> 0 <= pstart (fst s) p /\ pstart (fst s) p + psize g p <= snd s) /\
    (forall p q, inimg g p -> inimg g q -> rank p < rank q -> rank q < n ->
       pstart (fst s) p + psize g p <= pstart (fst s) q)).
  unfold calc_main_buf_size.
  match goal with |- context[for_up 0 h ?bd ?s0] =>
    destruct (for_up_inv (fun r s => P (r * w) s) bd 0 h s0) as ([m n] & E & Q1 & Q2 & Q3 & Q4 & Q5); [lia| | |] end.
  - unfold P, starts0. cbn [fst snd icols irows]. split; auto. split; auto. split; [lia|].
    assert (K : forall p, inimg g p -> 0 <= rank p) by (unfold inimg, rank; intros; nia).
    split; [intros p I C; specialize (K p I); lia|intros p q I J _ C; specialize (K q J); lia].
  - intros r s Hr Ps.
    match goal with |- context[for_up 0 w ?bd s] =>
      destruct (for_up_inv (fun c s => P (r * w + c) s) bd 0 w s) as (s' & E' & Q); [lia| | |] end.
    + rewrite Z.add_0_r. exact Ps.
    + intros c [m n] Hc (A1 & A2 & A3 & A4 & A5). cbn [fst snd] in *.
      destruct (put_in m c r n) as (m' & Em & C1 & C2 & C3 & C4); [split; lia|].
      rewrite Em. cbn [bind]. rewrite get_in by (split; lia). cbn [bind].
      eexists. split; [reflexivity|]. unfold P. cbn [fst snd].
      assert (Ip : inimg g (c, r)) by (split; cbn [fst snd]; lia).
      assert (RK : rank (c, r) = r * w + c) by reflexivity.
      pose proof (psize_nonneg g G (c, r) Ip) as SN.
      assert (ES : box_size (pix (bnd g) c r) = psize g (c, r)) by reflexivity. rewrite ES.
      assert (Old : forall p, inimg g p -> rank p < r * w + c -> pstart m' p = pstart m p).
      { intros p I H. apply C4. destruct p as [a b]. cbn [fst snd].
        assert ((a, b) <> (c, r)) by (intros C; rewrite C in H; lia).
        destruct (Z.eq_dec a c), (Z.eq_dec b r); subst; auto. }
      assert (New : pstart m' (c, r) = n) by exact C3.
      assert (Case : forall p, inimg g p -> rank p < r * w + (c + 1) -> p = (c, r) \/ rank p < r * w + c).
      { intros p I H. destruct (Z.eq_dec (rank p) (r * w + c)) as [E|N]; [left|right; lia].
        apply rank_inj; auto. }
      split; [lia|]. split; [lia|]. split; [lia|]. split.
      * intros p I H. destruct (Case p I H) as [->|H'].
        -- rewrite New. lia.
        -- rewrite Old by auto. specialize (A4 p I H'). lia.
      * intros p q I J Hpq Hq. destruct (Case q J Hq) as [->|H'].
        -- rewrite New, Old by (auto; lia). apply A4; auto; lia.
        -- rewrite !Old by (auto; lia). apply A5; auto.
    + exists s'. split; [exact E'|]. replace ((r + 1) * w) with (r * w + w) by ring. exact Q.
  - rewrite E. cbn [bind]. cbn [fst snd] in *.
    assert (K : forall p, inimg g p -> rank p < h * w) by (unfold inimg, rank; intros; nia).
    exists m, (if n <? 6 then 6 else n). split; auto.
    assert (LE : n <= (if n <? 6 then 6 else n) /\ 6 <= (if n <? 6 then 6 else n)) by (destruct (Z.ltb_spec n 6); lia).
    split; [|apply LE]. split; auto. split; auto. split.
    + intros p I. specialize (Q4 p I (K p I)). lia.
    + intros p q I J H. apply Q5; auto.
Qed.

Section L.
Variables (starts : img Z) (main : Z).
Hypothesis HL : layout starts main.
Notation slots := (slots g starts).
Lemma in_slots p i : In i (slots p) <-> pstart starts p <= i < pstart starts p + psize g p.
Proof.
  unfold Pass.slots. rewrite in_map_iff. split.
  - intros (k & <- & I). apply in_zrange in I. lia.
  - intros H. exists (i - pstart starts p). rewrite in_zrange. lia.
Qed.
Lemma slots_disjoint p q i : inimg g p -> inimg g q -> In i (slots p) -> In i (slots q) -> p = q.
Proof.
  rewrite !in_slots. intros I J A B. destruct HL as (_ & _ & _ & H).
  destruct (Z.lt_trichotomy (rank p) (rank q)) as [C|[C|C]].
  - specialize (H p q I J C). lia.
  - apply rank_inj; auto.
  - specialize (H q p J I C). lia.
Qed.
Lemma slots_nodup l : Forall (inimg g) l -> NoDup l -> NoDup (flat_map slots l).
Proof.
  intros F. induction 1 as [|p l N ND IH]; cbn [flat_map]; [constructor|].
  inversion F; subst. apply nodup_app; auto.
  - apply nodup_map_inj; [intros a b _ _ E; lia|apply zrange_nodup].
  - intros i I J. apply in_flat_map in J as (q & Iq & J). rewrite Forall_forall in H2.
    assert (p = q) by (eapply slots_disjoint; eauto). subst. auto.
Qed.
Lemma slots_length l : Forall (inimg g) l -> Z.of_nat (length (flat_map slots l)) = total g l.
Proof.
  induction 1; cbn [flat_map]; auto. rewrite app_length. unfold total in *. cbn [map zsum fold_right].
  fold (zsum (map (psize g) l)). unfold Pass.slots. rewrite map_length, zrange_length.
  pose proof (psize_nonneg g G x H). unfold Pass.slots in IHForall. lia.
Qed.
Lemma total_le_main l : Forall (inimg g) l -> NoDup l -> 0 <= main -> total g l <= main.
Proof.
  intros F N Hm. rewrite <- slots_length by auto.
  assert (I : incl (flat_map slots l) (zrange 0 main)).
  { intros i Ii. apply in_flat_map in Ii as (p & Ip & Ii). apply in_slots in Ii. apply in_zrange.
    rewrite Forall_forall in F. destruct HL as (_ & _ & H & _). specialize (H p (F p Ip)). lia. }
  apply NoDup_incl_length in I; [|apply slots_nodup; auto]. rewrite zrange_length in I. lia.
Qed.
Lemma total_le_len l : Forall (inimg g) l -> total g l <= Z.of_nat (length l) * nd g.
Proof.
  induction 1 as [|p l Ip F IH]; [unfold total; cbn; lia|].
  unfold total in *. cbn [map zsum fold_right length]. fold (zsum (map (psize g) l)).
  assert (psize g p <= nd g).
  { destruct (pbox_ok g G p Ip) as (B1 & B2 & B3). unfold psize, box_size.
    set (b := pbox g p) in *. rewrite nd_size. unfold box_size.
    destruct (Z_le_gt_dec (bx0 b) (bx1 b)), (Z_le_gt_dec (by0 b) (by1 b)).
    - assert (I1 : in_box (range g) (bx0 b, by0 b)) by (apply B3; unfold in_box; cbn [fst snd]; lia).
      assert (I2 : in_box (range g) (bx1 b, by1 b)) by (apply B3; unfold in_box; cbn [fst snd]; lia).
      unfold in_box in I1, I2. cbn [fst snd] in I1, I2. nia.
    - destruct G as (? & ? & _). replace (by1 b - by0 b + 1) with 0 by lia. unfold range; cbn [bx0 bx1 by0 by1]. nia.
    - destruct G as (? & ? & _). replace (bx1 b - bx0 b + 1) with 0 by lia. unfold range; cbn [bx0 bx1 by0 by1]. nia.
    - destruct G as (? & ? & _). replace (bx1 b - bx0 b + 1) with 0 by lia. unfold range; cbn [bx0 bx1 by0 by1]. nia. }
  lia.
Qed.

Lemma one_buf_enough l : Forall (inimg g) l -> NoDup l -> Z.of_nat (length l) <= Z.max w h -> 6 <= main ->
  total g l <= one_buf_size g main /\ 0 <= one_buf_size g main.
Proof.
  intros F N Hl Hm. pose proof (total_le_main l F N ltac:(lia)) as T1. pose proof (total_le_len l F) as T2.
  assert (NN : 0 <= nd g) by (destruct G as (? & ? & _); unfold nd, ndx, ndy; nia).
  assert (S1 : Z.max w h <= Z.sqrt (w * w + h * h)).
  { destruct G as (_ & _ & _ & _ & ? & ? & _). apply Z.sqrt_le_square; nia. }
  unfold one_buf_size. rewrite Z.gtb_ltb.
  assert (total g l <= (Z.sqrt (w * w + h * h) + 1) * nd g) by nia.
  assert (0 <= Z.sqrt (w * w + h * h)) by apply Z.sqrt_nonneg.
  destruct (Z.ltb_spec main ((Z.sqrt (w * w + h * h) + 1) * nd g)); split; try lia; nia.
Qed.

Variable ev : eval_fn.
Hypothesis EV : ev_good g ev.
Variables (t : list Z) (cost : list Z) (image : img Z).
Hypothesis Ht : table_ok g t.
Hypothesis HC : costs_ok cost.
Hypothesis HCl : len cost = main.
Hypothesis HI : image_ok g image.
Hypothesis HM : 6 <= main.
Notation site := (site_at g starts cost image).

Lemma inimg_in_img p : inimg g p <-> in_img w h p.
Proof. reflexivity. Qed.

Lemma line_facts d st l : In st (dir_starts g d) -> line_of g d st l ->
  Forall (inimg g) l /\ NoDup l /\ Z.of_nat (length l) <= Z.max w h /\
  (forall pre p post, l = pre ++ p :: post -> p :: rev pre = past_pixels w h d (fst p) (snd p)).
Proof.
  assert (GW : 0 < w /\ 0 < h) by (destruct G as (_ & _ & _ & _ & ? & ? & _); auto). destruct GW as [W1 W2].
  intros Is (n & -> & A & _). pose proof (line_len g W1 W2 d st n A) as LL. split; [|split; [|split]].
  - apply Forall_forall. intros p I. apply in_map_iff in I as (k & <- & I). apply in_zseq in I. apply A. lia.
  - apply nodup_map_inj; [|apply zseq_nodup]. intros a b _ _ E. eapply on_line_inj; eauto.
  - rewrite map_length, zseq_length. exact LL.
  - intros pre p post E.
    assert (Hk : (length pre < n)%nat).
    { apply (f_equal (@length _)) in E. rewrite map_length, zseq_length, app_length in E. cbn [length] in E. lia. }
    set (k := length pre) in *.
    assert (Sp : zseq 0 n = zseq 0 (S k) ++ zseq (0 + Z.of_nat (S k)) (n - S k)) by (rewrite <- zseq_app; f_equal; lia).
    assert (PP : pre ++ [p] = map (on_line (fst st) (snd st) d) (zseq 0 (S k))).
    { rewrite Sp, map_app in E. replace (pre ++ p :: post) with ((pre ++ [p]) ++ post) in E by (rewrite <- app_assoc; reflexivity).
      assert (LN : length (map (on_line (fst st) (snd st) d) (zseq 0 (S k))) = length (pre ++ [p]))
        by (rewrite map_length, zseq_length, app_length; cbn [length]; unfold k; lia).
      symmetry. eapply app_same_len; eauto. }
    assert (PE : p = on_line (fst st) (snd st) d (Z.of_nat k)).
    { rewrite zseq_snoc, map_app in PP. apply app_inj_tail in PP as [_ ->]. cbn [map]. f_equal. }
    replace (p :: rev pre) with (rev (pre ++ [p])) by (rewrite rev_app_distr; reflexivity). rewrite PP.
    unfold past_pixels. rewrite PE. symmetry. apply back_line; auto.
    + intros j Hj. apply A. lia.
    + lia.
Qed.

(* what a task adds *)
Lemma task_ok fuel d st l : In st (dir_starts g d) -> l_walk fuel (mk_line (fst st) (snd st) d w h) = Ok l ->
  exists us, task_updates g ev t starts main cost image fuel (fst st) (snd st) d = Ok us /\
    map fst us = flat_map slots l /\
    forall p e, In p l -> in_box (pbox g p) e ->
      In (pstart starts p + pos (pbox g p) e,
          path_cost R (p1 g) (p2 g) (past_sites g starts cost image d (fst p) (snd p)) e) us /\
      0 <= path_cost R (p1 g) (p2 g) (past_sites g starts cost image d (fst p) (snd p)) e <= 255 + Z.max (p1 g) (p2 g).
Proof.
  intros Is E. destruct (line_facts d st l Is (walk_line g fuel d st l E)) as (F & N & LL & B).
  destruct (one_buf_enough l F N LL HM) as [T1 T2].
  destruct HL as (L1 & L2 & L3 & L4).
  destruct (pass_loop_ok g G ev EV t starts cost image (one_buf_size g main)) with (l := l) as (s & Es & D); auto.
  { intros p Ip. rewrite HCl. apply L3; auto. }
  destruct D as (_ & _ & D3 & _ & _ & _ & D7).
  unfold task_updates. rewrite E. cbn [bind]. unfold line_pass. rewrite Es. cbn [bind].
  rewrite accum_updates_ok by (auto; lia).
  eexists. split; [reflexivity|]. split; [apply upds_idx|].
  intros p e Ip Ie. apply in_split in Ip as (pre & post & El).
  assert (Ipp : inimg g p) by (rewrite Forall_forall in F; apply F; rewrite El; apply in_or_app; right; left; auto).
  destruct (D7 pre p post e El Ie) as [V1 V2].
  assert (ES : map site (p :: rev pre) = past_sites g starts cost image d (fst p) (snd p)).
  { unfold past_sites. f_equal. apply (B pre p post El). }
  fold R in V1, V2. rewrite ES in V1, V2. split; auto. rewrite <- V2.
  replace (total g pre + pos (pbox g p) e) with (0 + total g pre + pos (pbox g p) e) by lia.
  rewrite El. apply upds_in; auto.
Qed.

Definition dir_cost (d : dir8) (p e : Z * Z) : Z :=
  path_cost R (p1 g) (p2 g) (past_sites g starts cost image d (fst p) (snd p)) e.

Lemma line_pixels_nodup d (ls : list (list (Z * Z))) (sts : list (Z * Z)) :
  Forall2 (line_of g d) sts ls -> incl sts (dir_starts g d) -> NoDup sts -> NoDup (concat ls).
Proof.
  assert (GW : 0 < w /\ 0 < h) by (destruct G as (_ & _ & _ & _ & ? & ? & _); auto). destruct GW as [W1 W2].
  intros F I N. revert I N. induction F as [|st l sts ls Hl F IH]; intros I N; cbn [concat]; [constructor|].
  inversion N; subst. apply nodup_app.
  - apply (line_facts d st l); auto. apply I; left; auto.
  - apply IH; auto. intros x Ix; apply I; right; auto.
  - intros p Ip Jp. apply in_concat in Jp as (l' & Il' & Jp).
    assert (exists st', In st' sts /\ line_of g d st' l') as (st' & Ist' & Hl').
    { clear - F Il'. induction F; [destruct Il'|]. destruct Il' as [<-|Il']; [exists x; split; [left; auto|auto]|].
      destruct (IHF Il') as (s & Hs & K). exists s. split; [right; auto|auto]. }
    destruct Hl as (n & -> & A & _). destruct Hl' as (n' & -> & A' & _).
    apply in_map_iff in Ip as (k & Ek & Ik). apply in_map_iff in Jp as (k' & Ek' & Ik').
    apply in_zseq in Ik, Ik'. subst p. symmetry in Ek'.
    destruct (one_line g W1 W2 d st st' k k') as [-> _]; auto; try lia.
    + apply I; left; auto.
    + apply I; right; auto.
    + intros j Hj. apply A. lia.
    + intros j Hj. apply A'. lia.
Qed.

(* one direction, all its threads interleaved in any way *)
Lemma progs_ok fuel d progs :
  Forall2 (fun st us => task_updates g ev t starts main cost image fuel (fst st) (snd st) d = Ok us) (dir_starts g d) progs ->
  let ts := map (fun us => Thr us None) progs in
  NoDup (idx ts) /\ (forall i v, In (i, v) (all_todo ts) -> 0 <= i < main) /\
  (forall p e, inimg g p -> in_box (pbox g p) e ->
     In (pstart starts p + pos (pbox g p) e, dir_cost d p e) (all_todo ts)) /\
  (forall i, In i (idx ts) -> exists p e, inimg g p /\ in_box (pbox g p) e /\ i = pstart starts p + pos (pbox g p) e).
Proof.
  assert (GW : 0 < w /\ 0 < h) by (destruct G as (_ & _ & _ & _ & ? & ? & _); auto). destruct GW as [W1 W2].
  intros F ts.
  assert (AT : all_todo ts = concat progs).
  { unfold all_todo, ts. clear F. induction progs; cbn [map flat_map concat todo]; auto. now f_equal. }
  (* the pixels of each task *)
  assert (X : forall sts progs, incl sts (dir_starts g d) ->
     Forall2 (fun st us => task_updates g ev t starts main cost image fuel (fst st) (snd st) d = Ok us) sts progs ->
     exists ls, Forall2 (fun st l => l_walk fuel (mk_line (fst st) (snd st) d w h) = Ok l) sts ls /\
       Forall2 (line_of g d) sts ls /\
       map fst (concat progs) = flat_map slots (concat ls)).
  { clear F AT ts progs. intros sts progs I F. revert I. induction F as [|st us sts progs E F IH]; intros I.
    - exists []. split; [constructor|]. split; [constructor|reflexivity].
    - destruct IH as (ls & F1 & F2 & F3); [intros x Ix; apply I; right; auto|].
      assert (exists l, l_walk fuel (mk_line (fst st) (snd st) d w h) = Ok l) as (l & El).
      { unfold task_updates in E. destruct (l_walk fuel (mk_line (fst st) (snd st) d w h)); cbn [bind] in E; try discriminate. eauto. }
      destruct (task_ok fuel d st l (I st (or_introl eq_refl)) El) as (us' & E' & M & _).
      assert (us' = us) by congruence. subst us'.
      exists (l :: ls). split; [constructor; auto|]. split; [constructor; auto; eapply walk_line; eauto|].
      cbn [concat]. rewrite map_app, M, F3, flat_map_app. reflexivity. }
  destruct (X (dir_starts g d) progs (incl_refl _) F) as (ls & F1 & F2 & F3).
  assert (Fin : Forall (inimg g) (concat ls)).
  { apply Forall_forall. intros p Ip. apply in_concat in Ip as (l & Il & Ip).
    assert (exists st, In st (dir_starts g d) /\ line_of g d st l) as (st & Is & Hl).
    { clear - F2 Il. induction F2; [destruct Il|]. destruct Il as [<-|Il]; [exists x; split; [left; auto|auto]|].
      destruct (IHF2 Il) as (s & Hs & K). exists s. split; [right; auto|auto]. }
    destruct (line_facts d st l Is Hl) as (K & _). rewrite Forall_forall in K. auto. }
  assert (IDX : idx ts = flat_map slots (concat ls)) by (unfold idx; rewrite AT; exact F3).
  split; [|split; [|split]].
  - rewrite IDX. apply slots_nodup; auto. apply (line_pixels_nodup d ls (dir_starts g d)); auto.
    + apply incl_refl.
    + apply dir_starts_nodup; auto.
  - intros i v I. assert (Ii : In i (idx ts)) by (unfold idx; apply in_map_iff; exists (i, v); auto).
    rewrite IDX in Ii. apply in_flat_map in Ii as (p & Ip & Ii). apply in_slots in Ii.
    rewrite Forall_forall in Fin. destruct HL as (_ & _ & L3 & _). specialize (L3 p (Fin p Ip)). lia.
  - intros p e Ip Ie. rewrite AT.
    destruct (on_some_line g W1 W2 d (Z.to_nat (Z.max w h)) (fst p) (snd p)) as (st & k & Is & Ek & A).
    { left. lia. }
    { destruct p; exact Ip. }
    assert (exists l us, In us progs /\ task_updates g ev t starts main cost image fuel (fst st) (snd st) d = Ok us /\
       l_walk fuel (mk_line (fst st) (snd st) d w h) = Ok l) as (l & us & Iu & Eu & El).
    { clear - F F1 Is. revert progs F. induction F1; intros progs F; [destruct Is|].
      inversion F; subst. destruct Is as [<-|Is].
      - exists y, y0. split; [left; auto|auto].
      - destruct (IHF1 Is l'0 H4) as (a & b & I & J & K). exists a, b. split; [right; auto|auto]. }
    destruct (task_ok fuel d st l Is El) as (us' & E' & _ & V).
    assert (us' = us) by congruence. subst us'.
    apply in_concat. exists us. split; auto. apply V; auto.
    destruct (walk_line g fuel d st l El) as (n & -> & A1 & A2).
    apply in_map_iff. exists (Z.of_nat k). split; [rewrite <- Ek; destruct p; reflexivity|].
    apply in_zseq. split; [lia|]. destruct (Z_lt_ge_dec (Z.of_nat k) (Z.of_nat n)) as [|Ge]; [lia|].
    exfalso. apply A2. apply A. lia.
  - intros i Ii. rewrite IDX in Ii. apply in_flat_map in Ii as (p & Ip & Ii). apply in_slots in Ii.
    rewrite Forall_forall in Fin. assert (I : inimg g p) by auto.
    destruct (pbox_ok g G p I) as (B1 & B2 & _).
    destruct (pos_surj (pbox g p) (i - pstart starts p)) as (e & Ie & Ee); auto.
    { unfold psize in Ii. lia. }
    exists p, e. split; auto. split; auto. lia.
Qed.

Lemma dir_run_ok d m m' : len m = main -> dir_run g ev t starts main cost image d m m' ->
  len m' = main /\
  (forall p e, inimg g p -> in_box (pbox g p) e ->
     at_ m' (pstart starts p + pos (pbox g p) e) = u16 (at_ m (pstart starts p + pos (pbox g p) e) + dir_cost d p e)) /\
  (forall i, 0 <= i -> (forall p, inimg g p -> ~ In i (slots p)) -> at_ m' i = at_ m i).
Proof.
  intros Lm (fuel & progs & ts & F & P & Fi).
  destruct (progs_ok fuel d progs F) as (N & Rg & V & O). cbv zeta in *.
  destruct (par_result _ _ _ _ P Fi N) as (Q1 & Q2 & Q3).
  - intros i v I. rewrite Lm. apply (Rg i v I).
  - apply Forall_forall. intros x I. apply in_map_iff in I as (us & <- & _). exact Logic.I.
  - split; [lia|]. split.
    + intros p e Ip Ie. apply Q2. apply V; auto.
    + intros i Hi No. apply Q3; auto. intros C. destruct (O i C) as (p & e & Ip & Ie & ->).
      apply (No p Ip). apply in_slots. pose proof (pos_range _ _ Ie). unfold psize. lia.
Qed.
Lemma dir_run_exists d m : len m = main -> exists m', dir_run g ev t starts main cost image d m m'.
Proof.
  intros Lm. destruct (walk_exists g d (dir_starts g d)) as (fuel & Hf).
  assert (X : forall sts, incl sts (dir_starts g d) -> exists progs,
     Forall2 (fun st us => task_updates g ev t starts main cost image fuel (fst st) (snd st) d = Ok us) sts progs).
  { induction sts as [|st sts IH]; intros I; [exists []; constructor|].
    destruct IH as (progs & F); [intros x Ix; apply I; right; auto|].
    destruct (Hf st (I st (or_introl eq_refl))) as (l & El).
    destruct (task_ok fuel d st l (I st (or_introl eq_refl)) El) as (us & E & _).
    exists (us :: progs). constructor; auto. }
  destruct (X _ (incl_refl _)) as (progs & F).
  destruct (progs_ok fuel d progs F) as (_ & Rg & _).
  destruct (run_all progs m []) as (m' & ts & P & Fi & _).
  - intros us i v I J. rewrite Lm. apply (Rg i v). unfold all_todo. apply in_flat_map. exists (Thr us None).
    split; [apply in_map_iff; eauto|auto].
  - constructor.
  - exists m', fuel, progs, ts. auto.
Qed.

Lemma dir_cost_bounds d p e : inimg g p -> in_box (pbox g p) e -> 0 <= dir_cost d p e <= 255 + Z.max (p1 g) (p2 g).
Proof.
  assert (GW : 0 < w /\ 0 < h) by (destruct G as (_ & _ & _ & _ & ? & ? & _); auto). destruct GW as [W1 W2].
  intros Ip Ie. destruct (on_some_line g W1 W2 d (Z.to_nat (Z.max w h)) (fst p) (snd p)) as (st & k & Is & Ek & A).
  { left. lia. }
  { destruct p; exact Ip. }
  destruct (walk_exists g d [st]) as (fuel & Hf). destruct (Hf st (or_introl eq_refl)) as (l & El).
  destruct (task_ok fuel d st l Is El) as (us & _ & _ & V). apply V; auto.
  destruct (walk_line g fuel d st l El) as (n & -> & A1 & A2).
  apply in_map_iff. exists (Z.of_nat k). split; [rewrite <- Ek; destruct p; reflexivity|].
  apply in_zseq. split; [lia|]. destruct (Z_lt_ge_dec (Z.of_nat k) (Z.of_nat n)) as [|Ge]; [lia|].
  exfalso. apply A2. apply A. lia.
Qed.

Lemma dirs_run_ok ds : forall m m', len m = main -> dirs_run g ev t starts main cost image ds m m' ->
  Z.of_nat (length ds) <= 8 ->
  (forall p e, inimg g p -> in_box (pbox g p) e ->
     0 <= at_ m (pstart starts p + pos (pbox g p) e) <= (8 - Z.of_nat (length ds)) * (255 + Z.max (p1 g) (p2 g))) ->
  len m' = main /\
  (forall p e, inimg g p -> in_box (pbox g p) e ->
     at_ m' (pstart starts p + pos (pbox g p) e) =
     at_ m (pstart starts p + pos (pbox g p) e) + zsum (map (fun d => dir_cost d p e) ds)) /\
  (forall i, 0 <= i -> (forall p, inimg g p -> ~ In i (slots p)) -> at_ m' i = at_ m i).
Proof.
  induction ds as [|d ds IH]; intros m m' Lm Rn Hd Hb; cbn [dirs_run] in Rn.
  - subst m'. split; auto. split; auto. intros. cbn [map zsum fold_right]. lia.
  - destruct Rn as (m1 & R1 & R2). cbn [length] in Hd, Hb.
    destruct (dir_run_ok d m m1 Lm R1) as (Q1 & Q2 & Q3).
    assert (V : forall p e, inimg g p -> in_box (pbox g p) e -> at_ m1 (pstart starts p + pos (pbox g p) e) =
       at_ m (pstart starts p + pos (pbox g p) e) + dir_cost d p e /\
       0 <= at_ m (pstart starts p + pos (pbox g p) e) + dir_cost d p e <=
       (8 - Z.of_nat (length ds)) * (255 + Z.max (p1 g) (p2 g))).
    { intros p e Ip Ie. specialize (Hb p e Ip Ie). pose proof (dir_cost_bounds d p e Ip Ie) as DB.
      rewrite Q2 by auto. destruct G as (_ & _ & ? & ? & _).
      set (M := 255 + Z.max (p1 g) (p2 g)) in *. assert (255 <= M <= 8191) by lia.
      rewrite u16_id; [|nia]. split; auto. nia. }
    destruct (IH m1 m' Q1 R2 ltac:(lia)) as (S1 & S2 & S3).
    { intros p e Ip Ie. destruct (V p e Ip Ie) as [-> ?]. auto. }
    split; auto. split.
    + intros p e Ip Ie. rewrite S2 by auto. destruct (V p e Ip Ie) as [-> _]. cbn [map zsum fold_right].
      fold (zsum (map (fun d => dir_cost d p e) ds)). lia.
    + intros i Hi No. rewrite S3, Q3 by auto. auto.
Qed.
Lemma dirs_run_exists ds : forall m, len m = main -> exists m', dirs_run g ev t starts main cost image ds m m'.
Proof.
  induction ds as [|d ds IH]; intros m Lm; [exists m; reflexivity|].
  destruct (dir_run_exists d m Lm) as (m1 & R1). destruct (dir_run_ok d m m1 Lm R1) as (Q1 & _).
  destruct (IH m1 Q1) as (m' & R2). exists m', m1. auto.
Qed.
End L.
End A.
