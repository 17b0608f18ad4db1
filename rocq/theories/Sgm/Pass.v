(* The pass over the pixels of one line. *)
From Coq Require Import ZArith List Bool Lia.
From Verif Require Import Lib.Base Lib.Lists ImgMem.Model Lib.Img Sgm.Model Sgm.Spec Sgm.Mem Sgm.Proofs.
Import ListNotations.
Local Open Scope Z_scope.

Section PA.
Variable g : sgm.
Hypothesis G : sgm_ok g.
Let R := range g.
Let top := 255 + Z.max (p1 g) (p2 g).

Definition ev_good (ev : eval_fn) : Prop :=
  forall bp L b t buf full cost po oo lo gr c,
  box_ok R bp -> (forall e, in_box bp e -> 0 <= L e <= top) -> box_ok R b -> table_ok g t ->
  0 <= po -> po + box_size bp <= oo -> oo + box_size b <= len buf ->
  (forall e, in_box bp e -> at_ buf (po + pos bp e) = L e) ->
  len full = nd g -> (forall i, 0 <= i < nd g -> at_ full i = bad g) ->
  0 <= lo -> lo + box_size b <= len cost -> (forall d, in_box b d -> at_ cost (lo + pos b d) = c d) ->
  (forall d, in_box b d -> 0 <= c d <= 255) -> 0 <= gr ->
  exists buf' full', ev t b bp buf po full cost lo oo gr = Ok (buf', full') /\
    written g bp L b buf oo gr c (box_size b) buf' /\ len full' = nd g /\
    (forall i, 0 <= i < nd g -> at_ full' i = bad g).

Lemma plain_good : ev_good (evaluate_path g).
Proof.
  unfold ev_good. intros. destruct G as (? & ? & ? & ? & _). apply evaluate_path_ok; auto.
Qed.
Lemma sse_good : ev_good (evaluate_path_sse g).
Proof.
  unfold ev_good. intros. destruct G as (? & ? & ? & ? & _). apply evaluate_path_sse_ok; auto.
Qed.

Variable ev : eval_fn.
Hypothesis EV : ev_good ev.
Variables (t : list Z) (starts : img Z) (cost : list Z) (image : img Z) (size : Z).
Hypothesis Ht : table_ok g t.
Hypothesis HS : icols starts = ocols g /\ irows starts = orows g.
Hypothesis HC : costs_ok cost.
Hypothesis HI : image_ok g image.
Definition pbox (p : Z * Z) : box := pix (bnd g) (fst p) (snd p).
Definition psize (p : Z * Z) : Z := box_size (pbox p).
Definition pstart (p : Z * Z) : Z := pix starts (fst p) (snd p).
Definition inimg (p : Z * Z) : Prop := 0 <= fst p < ocols g /\ 0 <= snd p < orows g.
Hypothesis HP : forall p, inimg p -> 0 <= pstart p /\ pstart p + psize p <= len cost.
Definition total (l : list (Z * Z)) : Z := zsum (map psize l).
Notation site := (site_at g starts cost image).

Lemma pbox_ok p : inimg p -> box_ok R (pbox p).
Proof.
  intros [I1 I2]. destruct G as (_ & _ & _ & _ & _ & _ & Ec & Er & K). apply K. split; lia.
Qed.
Lemma psize_nonneg p : inimg p -> 0 <= psize p.
Proof. intros I. destruct (pbox_ok p I) as (? & ? & _). unfold psize, box_size. nia. Qed.
Lemma total_app l l' : total (l ++ l') = total l + total l'.
Proof. unfold total. rewrite map_app. apply zsum_app. Qed.
Lemma total_nonneg l : Forall inimg l -> 0 <= total l.
Proof.
  unfold total. induction 1; cbn [map zsum fold_right]; [lia|]. pose proof (psize_nonneg _ H). fold (zsum (map psize l)). lia.
Qed.
Lemma site_box p : s_box (site p) = pbox p.
Proof. reflexivity. Qed.
Lemma cost_range p d : inimg p -> in_box (pbox p) d -> 0 <= s_cost (site p) d <= 255.
Proof.
  intros I J. pose proof (pos_range _ _ J). destruct (HP p I). unfold psize in *.
  unfold site_at. cbn [s_cost]. unfold costs_ok in HC. rewrite Forall_forall in HC. apply HC.
  apply nth_In. unfold len, pstart, pbox in *. lia.
Qed.
Lemma path_cost_cons p q rest d :
  path_cost R (p1 g) (p2 g) (map site (p :: q :: rest)) d =
  step_val g (pbox q) (path_cost R (p1 g) (p2 g) (map site (q :: rest))) (s_cost (site p)) (grad (site p) (site q)) d.
Proof. reflexivity. Qed.

Definition done (l : list (Z * Z)) (s : pstate) : Prop :=
  ps_out s = total l /\ ps_used s = total l /\ len (ps_buf s) = size /\
  len (ps_full s) = nd g /\ (forall i, 0 <= i < nd g -> at_ (ps_full s) i = bad g) /\
  ps_prev s = match rev l with
              | [] => None
              | p :: before => Some (total (rev before), pbox p, s_gray (site p))
              end /\
  forall pre p post d, l = pre ++ p :: post -> in_box (pbox p) d ->
    0 <= path_cost R (p1 g) (p2 g) (map site (p :: rev pre)) d <= top /\
    at_ (ps_buf s) (total pre + pos (pbox p) d) = path_cost R (p1 g) (p2 g) (map site (p :: rev pre)) d.

Lemma snoc_split {A} (l : list A) x pre p post : l ++ [x] = pre ++ p :: post ->
  (post = [] /\ pre = l /\ p = x) \/ (exists post', post = post' ++ [x] /\ l = pre ++ p :: post').
Proof.
  intros E. destruct post as [|y post] using rev_ind.
  - left. apply app_inj_tail in E as [-> ->]. auto.
  - clear IHpost. right. exists post. replace (pre ++ p :: post ++ [y]) with ((pre ++ p :: post) ++ [y]) in E
      by (rewrite <- app_assoc; reflexivity).
    apply app_inj_tail in E as [-> ->]. auto.
Qed.

Lemma pass_step_ok l p s : Forall inimg l -> inimg p -> done l s -> total (l ++ [p]) <= size ->
  exists s', pass_step g ev t starts cost image size p s = Ok s' /\ done (l ++ [p]) s'.
Proof.
  intros Fl Ip (D1 & D2 & D3 & D4 & D5 & D6 & D7) Hs.
  rewrite total_app in Hs. unfold total in Hs at 2. cbn [map zsum fold_right] in Hs.
  pose proof (total_nonneg l Fl) as TN. pose proof (psize_nonneg p Ip) as SN.
  destruct p as [c r]. unfold pass_step.
  assert (IB : inside (bnd g) c r) by (destruct G as (_ & _ & _ & _ & _ & _ & Ec & Er & _); destruct Ip; split; cbn [fst snd] in *; lia).
  assert (IS : inside starts c r) by (destruct HS, Ip; split; cbn [fst snd] in *; lia).
  rewrite (get_in (bnd g)) by auto. cbn [bind]. rewrite (get_in starts) by auto. cbn [bind].
  assert (EB : pix (bnd g) c r = pbox (c, r)) by reflexivity.
  assert (ES : pix starts c r = pstart (c, r)) by reflexivity. rewrite EB, ES.
  fold (psize (c, r)). set (p := (c, r)) in *. rewrite D2.
  rewrite Z.gtb_ltb, (proj2 (Z.ltb_ge size (total l + psize p))) by lia.
  rewrite (get_in image) by (apply HI; destruct Ip; auto). cbn [bind].
  assert (EG : pix image (c + mincol g) (r + minrow g) = s_gray (site p)) by reflexivity. rewrite EG.
  destruct (HP p Ip) as [HP1 HP2]. rewrite D1.
  assert (Step : exists bf, match ps_prev s with
     | Some (po, bp, pv) => ev t (pbox p) bp (ps_buf s) po (ps_full s) cost (pstart p) (total l) (Z.abs (s_gray (site p) - pv))
     | None => buf <- for_up 0 (psize p) (fun d buf => x <- rd cost (pstart p + d) ;; wr buf (total l + d) x) (ps_buf s) ;;
               Ok (buf, ps_full s) end = Ok bf /\ len (fst bf) = size /\ len (snd bf) = nd g /\
     (forall i, 0 <= i < nd g -> at_ (snd bf) i = bad g) /\
     (forall i, 0 <= i < total l -> at_ (fst bf) i = at_ (ps_buf s) i) /\
     (forall d, in_box (pbox p) d -> 0 <= path_cost R (p1 g) (p2 g) (map site (p :: rev l)) d <= top /\
        at_ (fst bf) (total l + pos (pbox p) d) = path_cost R (p1 g) (p2 g) (map site (p :: rev l)) d)).
  { rewrite D6. destruct (rev l) as [|q before] eqn:Er.
    - destruct (for_up_inv (fun k buf => len buf = size /\ (forall i, 0 <= i < total l -> at_ buf i = at_ (ps_buf s) i) /\
          (forall i, 0 <= i < k -> at_ buf (total l + i) = at_ cost (pstart p + i)))
        (fun d buf => x <- rd cost (pstart p + d) ;; wr buf (total l + d) x) 0 (psize p) (ps_buf s))
        as (bf & E & Q1 & Q2 & Q3); [lia| | |].
      + split; auto. split; auto. intros i Hi. lia.
      + intros k bf Hk (A1 & A2 & A3). rewrite rd_in by lia. cbn [bind]. rewrite wr_in by lia.
        eexists. split; [reflexivity|]. split; [rewrite len_upd; auto|]. split.
        * intros i Hi. rewrite at_upd by lia. destruct (Z.eqb_spec i (total l + k)); [lia|]. auto.
        * intros i Hi. rewrite at_upd by lia. destruct (Z.eqb_spec (total l + i) (total l + k)).
          -- do 2 f_equal. lia.
          -- apply A3. lia.
      + rewrite E. cbn [bind]. eexists. split; [reflexivity|]. cbn [fst snd].
        split; [auto|]. split; [auto|]. split; [auto|]. split; [auto|]. intros d Id.
        pose proof (pos_range _ _ Id). pose proof (cost_range p d Ip Id) as CR.
        cbn [map path_cost]. pose proof G as (_ & _ & G1 & G2 & _). split; [unfold top; lia|]. rewrite Q3 by (unfold psize; lia). reflexivity.
    - assert (El : l = rev before ++ [q]) by (rewrite <- (rev_involutive l), Er; reflexivity).
      assert (Iq : inimg q) by (rewrite El in Fl; apply Forall_app in Fl as [_ F]; inversion F; auto).
      assert (TB : 0 <= total (rev before)) by (apply total_nonneg; rewrite El in Fl; apply Forall_app in Fl as [F _]; auto).
      destruct (EV (pbox q) (path_cost R (p1 g) (p2 g) (map site (q :: before))) (pbox p) t (ps_buf s) (ps_full s) cost
        (total (rev before)) (total l) (pstart p) (grad (site p) (site q)) (s_cost (site p)))
        as (bf & fu & E & (W1 & W2 & W3) & Lf & Hf); auto.
      + apply pbox_ok; auto.
      + intros e Ie. destruct (D7 (rev before) q [] e El Ie) as [A _]. rewrite rev_involutive in A. exact A.
      + apply pbox_ok; auto.
      + rewrite El, total_app. unfold total at 3. cbn [map zsum fold_right]. unfold psize. lia.
      + fold (psize p). lia.
      + intros e Ie. destruct (D7 (rev before) q [] e El Ie) as [_ A]. rewrite rev_involutive in A. exact A.
      + intros d Id. apply cost_range; auto.
      + unfold grad. lia.
      + unfold grad in E. rewrite E. eexists. split; [reflexivity|]. cbn [fst snd].
        split; [lia|]. split; [auto|]. split; [auto|]. split.
        * intros i Hi. apply W3; lia.
        * intros d Id. rewrite path_cost_cons. split.
          -- destruct G as (? & ? & ? & ? & _). apply step_val_bounds; auto.
             ++ intros e Ie. destruct (D7 (rev before) q [] e El Ie) as [A _]. rewrite rev_involutive in A. exact A.
             ++ unfold grad. lia.
             ++ apply cost_range; auto.
          -- apply W2; auto. apply pos_range; auto. }
  destruct Step as (bf & E & A1 & A2 & A3 & A4 & A5). rewrite E. cbn [bind].
  eexists. split; [reflexivity|]. unfold done. cbn [ps_out ps_used ps_buf ps_full ps_prev].
  assert (T1 : total (l ++ [p]) = total l + psize p) by (rewrite total_app; unfold total at 2; cbn [map zsum fold_right]; lia).
  rewrite T1. split; [auto|]. split; [auto|]. split; [auto|]. split; [auto|]. split; [auto|]. split.
  - rewrite rev_app_distr. cbn [rev app]. rewrite rev_involutive. reflexivity.
  - intros pre q post d Es Id. apply snoc_split in Es as [(-> & -> & ->)|(post' & -> & El)].
    + apply A5; auto.
    + destruct (D7 pre q post' d El Id) as [B1 B2]. split; auto.
      assert (Fq := Fl). rewrite El in Fq. apply Forall_app in Fq as [Fpre Fq].
      assert (TP : 0 <= total pre) by (apply total_nonneg; auto).
      assert (TQ : total pre + psize q <= total l).
      { rewrite El, total_app. change (q :: post') with ([q] ++ post'). rewrite total_app.
        unfold total at 3. cbn [map zsum fold_right]. inversion Fq; subst. pose proof (total_nonneg post'). intuition lia. }
      pose proof (pos_range _ _ Id). unfold psize in TQ. rewrite A4 by lia. exact B2.
Qed.

Lemma pass_loop_app l l' : forall s, pass_loop g ev t starts cost image size (l ++ l') s =
  (s <- pass_loop g ev t starts cost image size l s ;; pass_loop g ev t starts cost image size l' s).
Proof.
  induction l as [|p l IH]; intros s; cbn [app pass_loop bind]; auto.
  destruct (pass_step g ev t starts cost image size p s); cbn [bind]; auto.
Qed.

Lemma pass_loop_ok l : Forall inimg l -> total l <= size -> 0 <= size ->
  exists s, pass_loop g ev t starts cost image size l
    (PS 0 None 0 (repeat 0 (Z.to_nat size)) (repeat (bad g) (Z.to_nat (nd g)))) = Ok s /\ done l s.
Proof.
  intros Fl Ts Hs. assert (N : 0 <= nd g).
  { destruct G as (? & ? & _). unfold nd, ndx, ndy. nia. }
  induction l as [|p l IH] using rev_ind.
  - cbn [pass_loop]. eexists. split; [reflexivity|]. unfold done. cbn [ps_out ps_used ps_buf ps_full ps_prev rev].
    split; [reflexivity|]. split; [reflexivity|]. rewrite !len_repeat. split; [lia|]. split; [lia|]. split.
    + intros i Hi. apply at_repeat. lia.
    + split; auto. intros pre p post d E. destruct pre; discriminate.
  - apply Forall_app in Fl as [Fl Fp]. inversion Fp; subst.
    assert (T1 : total (l ++ [p]) = total l + psize p) by (rewrite total_app; unfold total at 2; cbn [map zsum fold_right]; lia).
    pose proof (psize_nonneg p H1).
    destruct IH as (s & E & D); auto; [lia|].
    destruct (pass_step_ok l p s) as (s' & E' & D'); auto.
    exists s'. split; auto. rewrite pass_loop_app, E. cbn [bind pass_loop]. rewrite E'. reflexivity.
Qed.

(* the additions made for a line *)
Fixpoint upds (buf : list Z) (o : Z) (pxs : list (Z * Z)) : list (Z * Z) :=
  match pxs with
  | [] => []
  | p :: pxs => map (fun i => (pstart p + i, at_ buf (o + i))) (zrange 0 (psize p)) ++ upds buf (o + psize p) pxs
  end.
Lemma accum_updates_ok buf pxs : Forall inimg pxs -> forall o, 0 <= o -> o + total pxs <= len buf ->
  accum_updates g starts buf o pxs = Ok (upds buf o pxs).
Proof.
  induction 1 as [|[c r] pxs Ip Fp IH]; intros o Ho Hl; cbn [accum_updates upds]; auto.
  assert (IB : inside (bnd g) c r) by (destruct G as (_ & _ & _ & _ & _ & _ & Ec & Er & _); destruct Ip; split; cbn [fst snd] in *; lia).
  assert (IS : inside starts c r) by (destruct HS, Ip; split; cbn [fst snd] in *; lia).
  rewrite (get_in (bnd g)) by auto. cbn [bind]. rewrite (get_in starts) by auto. cbn [bind].
  assert (EB : box_size (pix (bnd g) c r) = psize (c, r)) by reflexivity.
  assert (ES : pix starts c r = pstart (c, r)) by reflexivity. rewrite EB, ES.
  set (p := (c, r)) in *. unfold total in Hl. cbn [map zsum fold_right] in Hl. fold (zsum (map psize pxs)) in Hl.
  fold (total pxs) in Hl. pose proof (psize_nonneg p Ip). pose proof (total_nonneg pxs Fp).
  destruct (for_up_inv (fun k us => us = map (fun i => (pstart p + i, at_ buf (o + i))) (zrange 0 k))
     (fun i us => v <- rd buf (o + i) ;; Ok (us ++ [(pstart p + i, v)])) 0 (psize p) []) as (us & E & Q); [lia| | |].
  - rewrite zrange_nil by lia. reflexivity.
  - intros k us Hk ->. rewrite rd_in by lia. cbn [bind]. eexists. split; [reflexivity|].
    rewrite (zrange_app 0 k (k + 1)) by lia. rewrite map_app. f_equal.
    rewrite (zrange_cons k) by lia. rewrite zrange_nil by lia. reflexivity.
  - rewrite E. cbn [bind]. rewrite IH by lia. cbn [bind]. now rewrite Q.
Qed.
Lemma upds_in buf p post d : inimg p -> in_box (pbox p) d -> forall pre o,
  In (pstart p + pos (pbox p) d, at_ buf (o + total pre + pos (pbox p) d)) (upds buf o (pre ++ p :: post)).
Proof.
  intros Ip Id. induction pre as [|q pre IH]; intros o; cbn [app upds]; apply in_or_app.
  - left. apply in_map_iff. exists (pos (pbox p) d). unfold total. cbn [map zsum fold_right]. split; [do 2 f_equal; lia|].
    apply in_zrange. apply pos_range; auto.
  - right. specialize (IH (o + psize q)).
    replace (o + total (q :: pre) + pos (pbox p) d) with (o + psize q + total pre + pos (pbox p) d); auto.
    unfold total. cbn [map zsum fold_right]. fold (zsum (map psize pre)). lia.
Qed.
Definition slots (p : Z * Z) : list Z := map (fun i => pstart p + i) (zrange 0 (psize p)).
Lemma upds_idx buf pxs : forall o, map fst (upds buf o pxs) = flat_map slots pxs.
Proof.
  induction pxs as [|p pxs IH]; intros o; cbn [upds flat_map]; auto.
  rewrite map_app, map_map, IH. reflexivity.
Qed.
End PA.
