(** C87: local extrema of interest images. *)
From Coq Require Import List Bool ZArith QArith Lia Lqa Sorted.
From Verif Require Import Lib.Base Peaks.Model Peaks.Spec.
Import ListNotations.
Local Open Scope Z_scope.

Lemma le_test a b (P : bool) : (if Qle_bool a b then false else P) = true <-> (b < a)%Q /\ P = true.
Proof.
  destruct (Qle_bool a b) eqn:E.
  - apply Qle_bool_iff in E. split; [discriminate|]. intros (H & _). exfalso. lra.
  - split; [|tauto]. intros H. split; [|exact H]. apply Qnot_le_lt. intros C. apply Qle_bool_iff in C. congruence.
Qed.
Lemma true_true : true = true <-> True. Proof. tauto. Qed.

Lemma around_all (P : Z -> Z -> Prop) i j : (forall i' j', around i j i' j' -> P i' j') <->
  P i (j - 1) /\ P i (j + 1) /\ P (i - 1) j /\ P (i + 1) j /\ P (i - 1) (j - 1) /\ P (i - 1) (j + 1) /\ P (i + 1) (j - 1) /\ P (i + 1) (j + 1).
Proof.
  split.
  - intros H. repeat split; apply H; (split; [intros E; injection E; lia|lia]).
  - intros H i' j' (N & A & B).
    assert (I : i' = i - 1 \/ i' = i \/ i' = i + 1) by lia. assert (J : j' = j - 1 \/ j' = j \/ j' = j + 1) by lia.
    destruct I as [->| [->| ->]]; destruct J as [->| [->| ->]]; try tauto; try congruence.
Qed.

(* A pixel is a peak when it is strictly above, or below, all eight around it. *)
Theorem is_extremum_iff t f i j : is_extremum t f i j = true <-> wanted t f i j.
Proof.
  assert (M : is_local_max f i j = true <-> strict_max f i j).
  { unfold is_local_max, strict_max. rewrite (around_all (fun a b => (f a b < f i j)%Q)), !le_test, true_true. tauto. }
  assert (N : is_local_min f i j = true <-> strict_min f i j).
  { unfold is_local_min, strict_min. rewrite (around_all (fun a b => (f i j < f a b)%Q)), !le_test, true_true. tauto. }
  destruct t; cbn [is_extremum wanted]; [exact M|exact N|]. now rewrite orb_true_iff, M, N.
Qed.
Theorem is_scale_extremum_iff t fm f fp i j : is_scale_extremum t fm f fp i j = true <-> scale_wanted t fm f fp i j.
Proof.
  assert (M : is_scale_max fm f fp i j = true <-> strict_max f i j /\ (fm i j < f i j)%Q /\ (fp i j < f i j)%Q).
  { unfold is_scale_max, strict_max. rewrite (around_all (fun a b => (f a b < f i j)%Q)), !le_test, true_true. tauto. }
  assert (N : is_scale_min fm f fp i j = true <-> strict_min f i j /\ (f i j < fm i j)%Q /\ (f i j < fp i j)%Q).
  { unfold is_scale_min, strict_min. rewrite (around_all (fun a b => (f i j < f a b)%Q)), !le_test, true_true. tauto. }
  destruct t; cbn [is_scale_extremum scale_wanted]; [exact M|exact N|]. now rewrite orb_true_iff, M, N.
Qed.

Lemma between_in a b x : In x (between a b) <-> a <= x < b.
Proof.
  unfold between. rewrite in_map_iff. split.
  - intros (k & <- & K). apply in_seq in K. lia.
  - intros H. exists (Z.to_nat (x - a)). split; [lia|]. apply in_seq. lia.
Qed.
Lemma between_sorted a b : StronglySorted Z.lt (between a b).
Proof.
  unfold between. generalize 0%nat. induction (Z.to_nat (b - a)) as [|n IH]; intros s; cbn [seq map]; constructor; [apply IH|].
  apply Forall_forall. intros x H. apply in_map_iff in H. destruct H as (k & <- & K). apply in_seq in K. lia.
Qed.

Definition row_points (f : Z -> Z -> Q) (test : Z -> Z -> bool) (s : Q) (c : list Z) (j : Z) : list point :=
  flat_map (fun i => if test i j then [Pt i j s (f i j)] else []) c.
Lemma fold_row (f : Z -> Z -> Q) (test : Z -> Z -> bool) (s : Q) (c : list Z) (j : Z) (l : list point) : fold_left (fun l i => if test i j then l ++ [Pt i j s (f i j)] else l) c l = l ++ row_points f test s c j.
Proof.
  revert l. induction c as [|i c IH]; intros l; cbn [fold_left row_points flat_map]; [now rewrite app_nil_r|].
  rewrite IH. fold (row_points f test s c j). destruct (test i j); [now rewrite <- app_assoc|reflexivity].
Qed.
Lemma fold_rows (f : Z -> Z -> Q) (test : Z -> Z -> bool) (s : Q) (c r : list Z) (l : list point) : fold_left (fun l j => fold_left (fun l i => if test i j then l ++ [Pt i j s (f i j)] else l) c l) r l =
  l ++ flat_map (row_points f test s c) r.
Proof.
  revert l. induction r as [|j r IH]; intros l; cbn [fold_left flat_map]; [now rewrite app_nil_r|].
  rewrite fold_row, IH, <- app_assoc. reflexivity.
Qed.
Lemma row_in f test s c j p : In p (row_points f test s c j) <-> exists i, In i c /\ test i j = true /\ p = Pt i j s (f i j).
Proof.
  unfold row_points. rewrite in_flat_map. split; intros (i & I & H); exists i; (split; [exact I|]).
  - destruct (test i j); [destruct H as [<-|[]]; auto|destruct H].
  - destruct H as (-> & ->). now left.
Qed.
Lemma sorted_app {A} (R : A -> A -> Prop) l m : StronglySorted R l -> StronglySorted R m -> (forall x y, In x l -> In y m -> R x y) -> StronglySorted R (l ++ m).
Proof.
  induction l as [|a l IH]; intros S T H; [exact T|]. inversion S as [|? ? S1 S2]; subst. cbn [app]. constructor.
  - apply IH; [assumption|assumption|]. intros; apply H; [now right|assumption].
  - apply Forall_app. split; [exact S2|]. apply Forall_forall. intros y Y. apply H; [now left|exact Y].
Qed.
Lemma row_sorted f test s c j : StronglySorted Z.lt c -> StronglySorted before (row_points f test s c j).
Proof.
  induction 1 as [|i c S IH F]; cbn [row_points flat_map]; [constructor|]. fold (row_points f test s c j).
  apply sorted_app; [|exact IH|].
  - destruct (test i j); repeat constructor.
  - intros x y X Y. apply row_in in Y. destruct Y as (i' & I & _ & ->). destruct (test i j); [|destruct X]. destruct X as [<-|[]].
    right. cbn [px py]. split; [reflexivity|]. rewrite Forall_forall in F. now apply F.
Qed.
Lemma rows_sorted f test s c r : StronglySorted Z.lt c -> StronglySorted Z.lt r -> StronglySorted before (flat_map (row_points f test s c) r).
Proof.
  intros C. induction 1 as [|j r S IH F]; cbn [flat_map]; [constructor|]. apply sorted_app; [now apply row_sorted|exact IH|].
  intros x y X Y. apply row_in in X. destruct X as (i & _ & _ & ->). apply in_flat_map in Y. destruct Y as (j' & J & Y).
  apply row_in in Y. destruct Y as (i' & _ & _ & ->). left. cbn [py]. rewrite Forall_forall in F. now apply F.
Qed.

Lemma scan_spec w h f test s found : exists new, scan w h f test s found = found ++ new /\ StronglySorted before new /\
  forall p, In p new <-> inner w h (px p) (py p) /\ test (px p) (py p) = true /\ scale p = s /\ interest p = f (px p) (py p).
Proof.
  unfold scan. exists (flat_map (row_points f test s (between 1 (w - 1))) (between 1 (h - 1))). rewrite fold_rows. split; [reflexivity|].
  split; [apply rows_sorted; apply between_sorted|]. intros p. rewrite in_flat_map. split.
  - intros (j & J & P). apply row_in in P. destruct P as (i & I & T & ->). apply between_in in I, J. unfold inner. cbn [px py scale interest]. auto.
  - intros ((I & J) & T & S & V). exists (py p). split; [now apply between_in|]. apply row_in. exists (px p). split; [now apply between_in|].
    split; [exact T|]. destruct p as [a b c d]. cbn [px py scale interest] in *. now subst.
Qed.

(* The points already in the list stay, and after them come, row by row and once each, exactly
   the peaks that are not at the border, with their interest. *)
Theorem find_peaks_found t im found : exists new, find_peaks t im found = found ++ new /\ StronglySorted before new /\
  forall p, In p new <-> inner (cols im) (rows im) (px p) (py p) /\ wanted t (at_px im) (px p) (py p) /\ scale p = 1%Q /\ interest p = at_px im (px p) (py p).
Proof.
  destruct (scan_spec (cols im) (rows im) (at_px im) (is_extremum t (at_px im)) 1%Q found) as (new & E & S & H).
  exists new. split; [exact E|]. split; [exact S|]. intros p. rewrite H, is_extremum_iff. reflexivity.
Qed.

(* No two maxima found in an image are next to each other, and no two minima. *)
Theorem peaks_apart t im p q : t <> PMinMax -> In p (find_peaks t im []) -> In q (find_peaks t im []) -> ~ around (px p) (py p) (px q) (py q).
Proof.
  intros N P Q A. destruct (find_peaks_found t im []) as (new & E & _ & H). rewrite E in P, Q. cbn [app] in P, Q. apply H in P, Q.
  destruct P as (_ & P & _). destruct Q as (_ & Q & _).
  assert (B : around (px q) (py q) (px p) (py p)) by (destruct A as (A & A1 & A2); split; [congruence|lia]).
  destruct t; cbn [wanted] in *; [| |congruence]; specialize (P _ _ A); specialize (Q _ _ B); lra.
Qed.

(* The planes of an octave must be there and have one size. *)
Theorem scale_peaks_refused t sc data found : find_scale_peaks t sc data found = Throw ArgumentErr <->
  data = [] \/ exists a b, In a data /\ In b data /\ (cols a <> cols b \/ rows a <> rows b).
Proof.
  destruct data as [|im0 l]; cbn [find_scale_peaks].
  - split; auto.
  - set (data := im0 :: l). destruct (forallb _ data) eqn:E; cbn [negb].
    + split; [discriminate|]. intros [H|(a & b & A & B & H)]; [discriminate|]. rewrite forallb_forall in E.
      pose proof (E _ A) as EA. pose proof (E _ B) as EB. apply andb_true_iff in EA, EB. rewrite !Z.eqb_eq in EA, EB. exfalso. lia.
    + split; [|reflexivity]. intros _. right. exists im0.
      assert (X : exists b, In b data /\ (cols im0 =? cols b) && (rows im0 =? rows b) = false).
      { clear -E. induction data as [|b d IH]; [discriminate|]. cbn [forallb] in E. apply andb_false_iff in E. destruct E as [E|E].
        - exists b. split; [now left|exact E]. - destruct (IH E) as (c & C & D). exists c. split; [now right|exact D]. }
      destruct X as (b & B & X). exists b. split; [now left|]. split; [exact B|]. apply andb_false_iff in X. rewrite !Z.eqb_neq in X. exact X.
Qed.

Lemma fold_parts {A} (g : Z -> list A -> list A) (good : Z -> list A -> Prop) :
  (forall k l, exists new, g k l = l ++ new /\ good k new) ->
  forall ks l, exists parts, fold_left (fun l k => g k l) ks l = l ++ concat parts /\ Forall2 good ks parts.
Proof.
  intros G. induction ks as [|k ks IH]; intros l; cbn [fold_left].
  - exists []. split; [now rewrite app_nil_r|constructor].
  - destruct (G k l) as (new & E & H). destruct (IH (g k l)) as (parts & E2 & H2). exists (new :: parts).
    split; [|now constructor]. rewrite E2, E, <- app_assoc. reflexivity.
Qed.
Lemma forall2_nth {A} (good : Z -> list A -> Prop) n a parts : Forall2 good (map (fun k => a + Z.of_nat k) (seq 0 n)) parts ->
  length parts = n /\ forall k, (k < n)%nat -> good (a + Z.of_nat k) (nth k parts []).
Proof.
  intros F. split.
  { assert (G : forall ks ps, Forall2 good ks ps -> length ps = length ks) by (induction 1; cbn [length]; congruence). rewrite (G _ _ F), map_length, seq_length. reflexivity. }
  intros k K. assert (G : forall ks ps, Forall2 good ks ps -> forall k x, nth_error ks k = Some x -> good x (nth k ps [])).
  { induction 1 as [|x p ks ps G _ IH]; intros [|m] y Y; cbn [nth_error nth] in *; try discriminate; [injection Y as <-; exact G|now apply IH]. }
  apply (G _ _ F). rewrite nth_error_map, (nth_error_nth' _ 0%nat) by (now rewrite seq_length). cbn [option_map]. rewrite seq_nth by exact K. reflexivity.
Qed.

(* In an octave of planes of one size the points found come plane by plane, the first and the last plane left
   out, in each plane row by row and exactly the peaks, with the scale of the plane. *)
Theorem scale_peaks_found t sc data found w h : data <> [] -> (forall im, In im data -> cols im = w /\ rows im = h) ->
  exists parts, find_scale_peaks t sc data found = Ok (found ++ concat parts) /\ length parts = (length data - 2)%nat /\
    forall k below im above, nth_error data k = Some below -> nth_error data (S k) = Some im -> nth_error data (S (S k)) = Some above ->
      StronglySorted before (nth k parts []) /\
      forall p, In p (nth k parts []) <-> inner w h (px p) (py p) /\ scale_wanted t (at_px below) (at_px im) (at_px above) (px p) (py p) /\
        scale p = sc (Z.of_nat (S k)) /\ interest p = at_px im (px p) (py p).
Proof.
  intros NE SZ. destruct data as [|im0 l]; [congruence|]. cbn [find_scale_peaks]. set (data := im0 :: l) in *.
  assert (F : forallb (fun im => (cols im0 =? cols im) && (rows im0 =? rows im)) data = true).
  { apply forallb_forall. intros im I. destruct (SZ _ I) as (A & B). destruct (SZ im0 (or_introl eq_refl)) as (C & D). rewrite A, B, C, D, !Z.eqb_refl. reflexivity. }
  rewrite F. cbn [negb]. destruct (SZ im0 (or_introl eq_refl)) as (C & D). rewrite C, D.
  set (none := Img 0 0 (fun _ _ => 0%Q)). set (plane := fun k => nth (Z.to_nat k) data none).
  destruct (fold_parts (fun k l => scan w h (at_px (plane k)) (is_scale_extremum t (at_px (plane (k - 1))) (at_px (plane k)) (at_px (plane (k + 1)))) (sc k) l)
    (fun k new => StronglySorted before new /\ forall p, In p new <-> inner w h (px p) (py p) /\
       is_scale_extremum t (at_px (plane (k - 1))) (at_px (plane k)) (at_px (plane (k + 1))) (px p) (py p) = true /\ scale p = sc k /\ interest p = at_px (plane k) (px p) (py p)))
    with (ks := between 1 (Z.of_nat (length data) - 1)) (l := found) as (parts & E & P).
  { intros k l0. apply scan_spec. }
  exists parts. split; [f_equal; exact E|]. unfold between in P. apply forall2_nth in P. destruct P as (L & P).
  split; [rewrite L; lia|]. intros k below im above N0 N1 N2.
  assert (K : (S (S k) < length data)%nat) by (apply nth_error_Some; congruence).
  specialize (P k ltac:(lia)). replace (1 + Z.of_nat k) with (Z.of_nat (S k)) in P by lia.
  assert (X0 : plane (Z.of_nat (S k) - 1) = below) by (unfold plane; replace (Z.to_nat (Z.of_nat (S k) - 1)) with k by lia; now apply nth_error_nth).
  assert (X1 : plane (Z.of_nat (S k)) = im) by (unfold plane; rewrite Nat2Z.id; now apply nth_error_nth).
  assert (X2 : plane (Z.of_nat (S k) + 1) = above) by (unfold plane; replace (Z.to_nat (Z.of_nat (S k) + 1)) with (S (S k)) by lia; now apply nth_error_nth).
  rewrite X0, X1, X2 in P. destruct P as (P1 & P2). split; [exact P1|]. intros p. rewrite P2, is_scale_extremum_iff. reflexivity.
Qed.

(* The first image has a peak in the middle; the second is higher at a corner of it. *)
Definition hill : image := Img 3 3 (fun i j => if (i =? 1) && (j =? 1) then 5%Q else 0%Q).
Definition corner : image := Img 3 3 (fun i j => if (i =? 0) && (j =? 0) then 9%Q else 0%Q).
Example find_peaks_met : find_peaks PMax hill [] = [Pt 1 1 1 5] /\ find_peaks PMinMax corner [] = [].
Proof. split; vm_compute; reflexivity. Qed.
Example scale_peaks_met : find_scale_peaks PMax (fun _ => 2%Q) [corner; hill; corner] [] = Ok [Pt 1 1 2 5].
Proof. vm_compute; reflexivity. Qed.

(** A point found in space and scale is a strict maximum among all 26 places around it.
    False: in the planes above and below only the same pixel is looked at. *)
Theorem scale_peak_cube_refuted : ~ (forall sc below im above found p, find_scale_peaks PMax sc [below; im; above] [] = Ok found -> In p found ->
  forall i j, Z.abs (i - px p) <= 1 -> Z.abs (j - py p) <= 1 -> (at_px above i j < interest p)%Q).
Proof.
  intros H. specialize (H (fun _ => 2%Q) corner hill corner [Pt 1 1 2 5] (Pt 1 1 2 5) scale_peaks_met (or_introl eq_refl) 0 0 ltac:(cbn; lia) ltac:(cbn; lia)).
  vm_compute in H. discriminate.
Qed.
(** A plateau higher than everything around it gives a point. False: a peak must be strictly
    above each neighbour. *)
Theorem plateau_peak_refuted : ~ (forall im a b c d, inner (cols im) (rows im) a b -> inner (cols im) (rows im) c d ->
  (forall i j, (at_px im i j <= at_px im a b)%Q) -> (forall i j, (at_px im i j == at_px im a b)%Q -> (i, j) = (a, b) \/ (i, j) = (c, d)) ->
  find_peaks PMax im [] <> []).
Proof.
  intros H. set (im := Img 4 3 (fun i j => if ((i =? 1) || (i =? 2)) && (j =? 1) then 5%Q else 0%Q)).
  apply (H im 1 1 2 1).
  - unfold inner, im. cbn [cols rows]. lia.
  - unfold inner, im. cbn [cols rows]. lia.
  - intros i j. unfold im. cbn [at_px]. change (((1 =? 1) || (1 =? 2)) && (1 =? 1)) with true. cbv iota. destruct (((i =? 1) || (i =? 2)) && (j =? 1)); lra.
  - intros i j. unfold im. cbn [at_px]. change (((1 =? 1) || (1 =? 2)) && (1 =? 1)) with true. cbv iota.
    destruct (i =? 1) eqn:A; destruct (i =? 2) eqn:B; destruct (j =? 1) eqn:C; rewrite ?Z.eqb_eq in *; cbn [orb andb]; intros E; subst; auto; try lia; exfalso; lra.
  - vm_compute. reflexivity.
Qed.

Print Assumptions is_extremum_iff. Print Assumptions is_scale_extremum_iff. Print Assumptions find_peaks_found. Print Assumptions peaks_apart.
Print Assumptions scale_peaks_refused. Print Assumptions scale_peaks_found. Print Assumptions scale_peak_cube_refuted. Print Assumptions plateau_peak_refuted.
