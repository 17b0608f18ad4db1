(* Buffers and loops over the disparities of a box. *)
From Coq Require Import ZArith List Bool Lia.
From Verif Require Import Lib.Base Lib.Lists ImgMem.Model Lib.Img Sgm.Model Sgm.Spec.
Import ListNotations.
Local Open Scope Z_scope.

Definition at_ (l : list Z) (i : Z) : Z := nth (Z.to_nat i) l 0.
Definition len (l : list Z) : Z := Z.of_nat (length l).

Lemma rd_in l i : 0 <= i < len l -> rd l i = Ok (at_ l i).
Proof.
  intros H. unfold rd, at_. unfold len in H.
  rewrite (proj2 (Z.leb_le 0 i)), (proj2 (Z.ltb_lt i _)) by lia. reflexivity.
Qed.
Lemma wr_in l i v : 0 <= i < len l -> wr l i v = Ok (upd l (Z.to_nat i) v).
Proof.
  intros H. unfold wr. unfold len in H.
  rewrite (proj2 (Z.leb_le 0 i)), (proj2 (Z.ltb_lt i _)) by lia. reflexivity.
Qed.
Lemma len_upd l i v : len (upd l (Z.to_nat i) v) = len l.
Proof. unfold len. now rewrite upd_length. Qed.
Lemma at_upd l i j v : 0 <= i < len l -> 0 <= j ->
  at_ (upd l (Z.to_nat i) v) j = if j =? i then v else at_ l j.
Proof.
  unfold len, at_. intros H Hj. destruct (Z.eqb_spec j i) as [->|N].
  - apply upd_nth_eq. lia.
  - apply upd_nth_neq. lia.
Qed.
Lemma at_repeat v n i : 0 <= i < Z.of_nat n -> at_ (repeat v n) i = v.
Proof.
  intros H. unfold at_. rewrite (nth_indep _ 0 v) by (rewrite repeat_length; lia). apply nth_repeat.
Qed.
Lemma len_repeat v n : len (repeat v n) = Z.of_nat n.
Proof. unfold len. now rewrite repeat_length. Qed.
Lemma at_ext l l' : len l = len l' -> (forall i, 0 <= i < len l -> at_ l i = at_ l' i) -> l = l'.
Proof.
  intros E H. unfold len in *. apply (nth_ext l l' 0 0); [lia|].
  intros n Hn. specialize (H (Z.of_nat n) ltac:(lia)). unfold at_ in H. now rewrite Nat2Z.id in H.
Qed.

Section B.
Variable g : sgm.
Notation W b := (bx1 b - bx0 b + 1).
Notation HH b := (by1 b - by0 b + 1).

Lemma box_loop_inv {A} (P : Z -> A -> Prop) b body s :
  bx0 b <= bx1 b + 1 -> by0 b <= by1 b + 1 -> P 0 s ->
  (forall dx dy s, in_box b (dx, dy) -> P (pos b (dx, dy)) s ->
     exists s', body (xy_to_disp g dx dy) s = Ok s' /\ P (pos b (dx, dy) + 1) s') ->
  exists s', box_loop g b body s = Ok s' /\ P (box_size b) s'.
Proof.
  intros Hx Hy P0 Hb. unfold box_loop.
  destruct (for_up_inv (fun dy s => P ((dy - by0 b) * W b) s)
    (fun dy s => r <- for_up (bx0 b) (bx1 b + 1) (fun _ r =>
           s <- body (fst r) (snd r) ;; Ok (fst r + 1, s)) (xy_to_disp g (bx0 b) dy, s) ;;
    Ok (snd r)) (by0 b) (by1 b + 1) s) as (s' & E & Q); [lia| | |].
  - rewrite Z.sub_diag. exact P0.
  - intros dy t Hdy Pt.
    destruct (for_up_inv (fun dx (r : Z * A) => fst r = xy_to_disp g dx dy /\ P (pos b (dx, dy)) (snd r))
       (fun _ r => s <- body (fst r) (snd r) ;; Ok (fst r + 1, s)) (bx0 b) (bx1 b + 1)
       (xy_to_disp g (bx0 b) dy, t)) as (r & Er & Qf & Qr); [lia| | |].
    + cbn [fst snd]. split; auto. unfold pos. cbn [fst snd]. rewrite Z.sub_diag, Z.add_0_r. exact Pt.
    + intros dx [f u] Hdx [Ef Pu]. cbn [fst snd] in *. subst f.
      destruct (Hb dx dy u) as (u' & Eu & Pu'); auto.
      { unfold in_box; cbn [fst snd]; lia. }
      exists (xy_to_disp g dx dy + 1, u'). rewrite Eu. cbn [bind fst snd]. split; auto. split.
      * unfold xy_to_disp. lia.
      * unfold pos in *; cbn [fst snd] in *.
        replace ((dy - by0 b) * W b + (dx + 1 - bx0 b)) with ((dy - by0 b) * W b + (dx - bx0 b) + 1) by ring. auto.
    + exists (snd r). rewrite Er. cbn [bind]. split; auto.
      unfold pos in Qr; cbn [fst snd] in Qr.
      replace ((dy + 1 - by0 b) * W b) with ((dy - by0 b) * W b + (bx1 b + 1 - bx0 b)) by ring. auto.
  - exists s'. split; auto. unfold box_size.
    replace (W b * HH b) with ((by1 b + 1 - by0 b) * W b) by ring. auto.
Qed.

Lemma pos_range b d : in_box b d -> 0 <= pos b d < box_size b.
Proof. unfold in_box, pos, box_size. intros [? ?]. nia. Qed.
Lemma pos_inj b d e : in_box b d -> in_box b e -> pos b d = pos b e -> d = e.
Proof.
  unfold in_box, pos. destruct d as [a c], e as [a' c']. cbn [fst snd]. intros [? ?] [? ?] E.
  assert (c = c') by nia. subst. f_equal. lia.
Qed.
Lemma pos_surj b k : bx0 b <= bx1 b + 1 -> by0 b <= by1 b + 1 -> 0 <= k < box_size b ->
  exists d, in_box b d /\ pos b d = k.
Proof.
  unfold box_size, in_box, pos. intros Hx Hy Hk. assert (0 < W b) by nia.
  exists (bx0 b + k mod W b, by0 b + k / W b). cbn [fst snd].
  pose proof (Z.mod_pos_bound k (W b) ltac:(lia)). pose proof (Z.div_mod k (W b) ltac:(lia)).
  assert (0 <= k / W b < HH b) by (split; [apply Z.div_pos; lia|apply Z.div_lt_upper_bound; nia]).
  split; [split; lia|]. nia.
Qed.
Lemma xy_pos dx dy : xy_to_disp g dx dy = pos (range g) (dx, dy).
Proof. unfold xy_to_disp, pos, range, ndx. cbn [fst snd bx0 bx1 by0 by1]. ring. Qed.
Lemma nd_size : nd g = box_size (range g).
Proof. unfold nd, box_size, range, ndx, ndy. cbn [bx0 bx1 by0 by1]. ring. Qed.
Lemma in_boxb_iff b d : in_boxb b d = true <-> in_box b d.
Proof. unfold in_boxb, in_box. rewrite !andb_true_iff, !Z.leb_le. lia. Qed.
Lemma in_cells b d : In d (cells b) <-> in_box b d.
Proof.
  unfold cells, in_box. rewrite in_flat_map. split.
  - intros (y & Iy & I). apply in_map_iff in I as (x & <- & Ix). rewrite in_zrange in *. cbn [fst snd]. lia.
  - destruct d as [x y]. cbn [fst snd]. intros [? ?]. exists y. rewrite in_zrange. split; [lia|].
    apply in_map_iff. exists x. rewrite in_zrange. split; auto. lia.
Qed.
Lemma same_iff d e : same d e = true <-> d = e.
Proof.
  unfold same. destruct d, e; cbn [fst snd]. rewrite andb_true_iff, !Z.eqb_eq. intuition congruence.
Qed.
Lemma near_iff d e : near d e = true <-> -1 <= fst d - fst e <= 1 /\ -1 <= snd d - snd e <= 1.
Proof. unfold near. rewrite andb_true_iff, !Z.leb_le. lia. Qed.

Lemma minl_spec v l : (minl v l = v \/ In (minl v l) l) /\ minl v l <= v /\ forall x, In x l -> minl v l <= x.
Proof.
  induction l as [|a l IH]; cbn [minl fold_right].
  - split; [auto|]. split; [lia|intros x []].
  - fold (minl v l) in *. destruct IH as ([IH|IH] & Hv & Hl).
    + split; [|split; [lia|intros x [->|I]; [lia|specialize (Hl x I); lia]]].
      destruct (Z.min_spec a (minl v l)) as [[_ ->]|[_ ->]]; [right; left; auto|left; auto].
    + split; [|split; [lia|intros x [->|I]; [lia|specialize (Hl x I); lia]]].
      destruct (Z.min_spec a (minl v l)) as [[_ ->]|[_ ->]]; right; [left; auto|right; auto].
Qed.
Lemma minl_unique v l z : (z = v \/ In z l) -> z <= v -> (forall x, In x l -> z <= x) -> z = minl v l.
Proof.
  intros Hz Hv Hl. destruct (minl_spec v l) as (A & B & C).
  destruct Hz as [->|I], A as [E|J]; try lia.
  - specialize (Hl _ J). lia.
  - specialize (C _ I). lia.
  - specialize (C _ I). specialize (Hl _ J). lia.
Qed.
End B.
