From Coq Require Import List ZArith Lia Bool Ascii String.
From Verif Require Import Lib.Base Lib.Lists Lib.Str CNet.Model CNet.Spec.
Import ListNotations.
Open Scope Z_scope.

Lemma measure_eqb_spec a b : reflect (alike a b) (measure_eqb a b).
Proof.
  unfold measure_eqb, alike.
  destruct (Z.eqb_spec (mcol a) (mcol b)), (Z.eqb_spec (mrow a) (mrow b)), (Z.eqb_spec (mcol_sigma a) (mcol_sigma b)),
    (Z.eqb_spec (mrow_sigma a) (mrow_sigma b)), (Nat.eqb_spec (mimage a) (mimage b)); cbn; constructor; tauto.
Qed.

Lemma find_from_ok q : forall ms i, exists j, find_from i ms q = (i + j)%nat /\ (j <= List.length ms)%nat /\
  (forall n m, (n < j)%nat -> nth_error ms n = Some m -> ~ alike m q) /\
  (forall m, nth_error ms j = Some m -> alike m q).
Proof.
  induction ms as [|m ms IH]; intros i; cbn [find_from List.length].
  - exists O. split; [lia|]. split; [lia|]. split; [intros; lia|]. intros m E. discriminate.
  - destruct (measure_eqb_spec m q) as [A|N].
    + exists O. split; [lia|]. split; [lia|]. split; [intros; lia|]. intros m' E. injection E as <-. exact A.
    + destruct (IH (S i)) as (j & -> & L & B & A). exists (S j). split; [lia|]. split; [lia|]. split.
      * intros [|n] m' Hn E; cbn [nth_error] in E; [injection E as <-; auto|]. apply (B n); auto; lia.
      * intros m' E. now apply A.
Qed.

Lemma erase_at_ok {X} (l : list X) i : (i < List.length l)%nat -> exists a x b, l = a ++ x :: b /\ List.length a = i /\ erase_at i l = a ++ b.
Proof.
  intros L. unfold erase_at. destruct (nth_error l i) as [x|] eqn:E; [|apply nth_error_None in E; lia].
  exists (firstn i l), x, (skipn (S i) l). split; [|split; auto].
  - rewrite <- (firstn_skipn i l) at 1. f_equal.
    clear L. revert i E. induction l as [|y l IH]; intros [|i] E; cbn [nth_error] in E; try discriminate; cbn [skipn]; [congruence|].
    apply IH in E. exact E.
  - apply firstn_length_le. lia.
Qed.

Lemma count_points_ok f : forall ps n, count_points f n ps = (n + List.length (filter f ps))%nat.
Proof.
  induction ps as [|p ps IH]; intros n; cbn [count_points filter]; [cbn [List.length]; lia|].
  rewrite IH. destruct (f p); cbn [List.length]; lia.
Qed.

Definition grounded (net : network) : Prop := forall p, In p (npoints net) -> is_gcp p = true -> nntype net = ImageToGround.

Lemma add_points_grounded ps net : grounded net -> grounded (add_control_points ps net).
Proof.
  intros G p I Q. unfold add_control_points in *. cbn [npoints nntype] in *.
  destruct (nntype net) eqn:T; cbn [to_ground negb].
  3: reflexivity.
  all: destruct (existsb is_gcp ps) eqn:E; auto; apply in_app_iff in I; destruct I as [I|I];
    [pose proof (G p I Q); congruence|];
    assert (existsb is_gcp ps = true) by (apply existsb_exists; eauto); congruence.
Qed.

Lemma add_point_same p net : add_control_point p net = add_control_points [p] net.
Proof.
  unfold add_control_point, add_control_points. cbn [existsb]. rewrite orb_false_r.
  destruct (negb (to_ground (nntype net))), (is_gcp p); reflexivity.
Qed.

Lemma made_grounded net : made net -> grounded net.
Proof.
  induction 1 as [t|p net M IH|ps net M IH|i net net' M IH E|x net M IH].
  - intros p [].
  - rewrite add_point_same. now apply add_points_grounded.
  - now apply add_points_grounded.
  - unfold delete_control_point in E. destruct (_ <=? _)%nat eqn:L; [discriminate|]. apply Nat.leb_gt in L. injection E as <-.
    destruct (erase_at_ok (npoints net) i L) as (a & x & b & EQ & _ & EE).
    intros p I Q. cbn [npoints nntype] in *. apply (IH p); auto. rewrite EE in I. rewrite EQ.
    apply in_app_iff in I. apply in_app_iff. cbn [In]. tauto.
  - exact IH.
Qed.

(** ** Files *)

Section Files.
Variable geodetic cartesian : vec3 -> vec3.
Variable digits : Z -> str.

Lemma write_measures_ok images : forall ms, ms <> [] -> (forall m, In m ms -> (mimage m < List.length images)%nat) ->
  write_measures images ms = (flat_map (measure_tokens images) ms ++ [End], Ok tt).
Proof.
  induction ms as [|m ms IH]; intros NE IN; [contradiction|]. cbn [write_measures flat_map].
  destruct (nth_error_ex images (mimage m) (IN m (or_introl eq_refl))) as (x & E). unfold measure_tokens at 1. rewrite E.
  destruct ms as [|m' ms].
  - reflexivity.
  - rewrite IH by (try discriminate; intros; apply IN; now right). cbn [app]. reflexivity.
Qed.

Definition ended (ls : list (list tok)) : list tok := flat_map (fun l => l ++ [End]) ls.

Lemma write_points_ok images : forall ps n, (forall p, In p ps -> complete images p) ->
  write_points geodetic images n ps = (ended (lines_of geodetic images (n + 1) ps), Ok tt).
Proof.
  induction ps as [|p ps IH]; intros n C; cbn [write_points lines_of]; [reflexivity|].
  destruct (C p (or_introl eq_refl)) as (NE & IN).
  rewrite write_measures_ok by (auto; intros m I; apply IN; auto).
  rewrite IH by (intros; apply C; now right).
  unfold ended. cbn [flat_map]. unfold line_of, kept_sigma, positive. cbn [vx vy vz]. now rewrite <- !app_assoc.
Qed.

Lemma lines_step : forall l acc ts, ~ In End l -> lines acc (l ++ End :: ts) = (acc ++ l) :: lines [] ts.
Proof.
  induction l as [|t l IH]; intros acc ts NI; cbn [app lines].
  - now rewrite app_nil_r.
  - destruct t; try (rewrite IH by (intros I; apply NI; now right); now rewrite <- app_assoc). exfalso. apply NI. now left.
Qed.

Lemma lines_ended : forall ls, (forall l, In l ls -> ~ In End l) -> lines [] (ended ls) = ls.
Proof.
  induction ls as [|l ls IH]; intros NI; [reflexivity|]. unfold ended. cbn [flat_map]. fold (ended ls).
  rewrite <- app_assoc. cbn [app]. rewrite lines_step by (apply NI; now left). cbn [app]. f_equal. apply IH. intros; apply NI; now right.
Qed.

Lemma line_no_end images n p : ~ In End (line_of geodetic images n p).
Proof.
  unfold line_of. rewrite in_app_iff. intros [I|I].
  - cbn [In] in I. destruct I as [I|[I|[I|[I|[I|[I|[I|[]]]]]]]]; discriminate.
  - apply in_flat_map in I. destruct I as (m & _ & I). unfold measure_tokens in I. destruct (nth_error images (mimage m)); [|destruct I].
    cbn [In] in I. destruct I as [I|[I|[I|[I|[I|[]]]]]]; discriminate.
Qed.

Lemma lines_no_end images : forall ps n l, In l (lines_of geodetic images n ps) -> ~ In End l.
Proof.
  induction ps as [|p ps IH]; intros n l I; cbn [lines_of] in I; [destruct I|]. destruct I as [<-|I]; [apply line_no_end|eauto].
Qed.

Lemma read_measures_ok images : forall ms fuel, (List.length ms < fuel)%nat ->
  (forall m, In m ms -> (mimage m < List.length images)%nat /\ 0 < mcol_sigma m /\ 0 < mrow_sigma m) ->
  exists l, read_measures digits fuel (flat_map (measure_tokens images) ms) = Ok l /\
    Forall2 (fun m e => nth_error images (mimage m) = Some (fst e) /\ snd e = (mcol m, mrow m, mcol_sigma m, mrow_sigma m)) ms l.
Proof.
  induction ms as [|m ms IH]; intros [|fuel] F IN; try (cbn [List.length] in F; lia); cbn [flat_map].
  - exists []. split; [reflexivity|constructor].
  - destruct (IN m (or_introl eq_refl)) as (L & C & R).
    destruct (nth_error_ex images (mimage m) L) as (x & E). unfold measure_tokens at 1. rewrite E.
    cbn [app read_measures as_name].
    destruct (Z.leb_spec (mcol_sigma m) 0); [lia|]. destruct (Z.leb_spec (mrow_sigma m) 0); [lia|]. cbn [orb].
    destruct (IH fuel) as (l & EL & FL).
    + cbn [List.length] in F. lia.
    + intros; apply IN; now right.
    + rewrite EL. cbn [bind]. eexists. split; [reflexivity|]. constructor; auto.
Qed.

Lemma last_entry_none : forall images i0 x,
  (forall j y, nth_error images j = Some y -> y <> x /\ file_name y <> x) -> last_entry (image_lookup i0 images) x = None.
Proof.
  induction images as [|y images IH]; intros i0 x N; cbn [image_lookup last_entry]; auto.
  rewrite IH by (intros j z E; apply (N (S j)); exact E).
  destruct (N O y eq_refl) as (N1 & N2).
  apply str_eqb_false in N1. apply str_eqb_false in N2. now rewrite N1, N2.
Qed.

Lemma last_entry_ok : forall images i0 i x, nth_error images i = Some x ->
  (forall j y, nth_error images j = Some y -> y = x \/ file_name y = x -> j = i) ->
  last_entry (image_lookup i0 images) x = Some (i0 + i)%nat.
Proof.
  induction images as [|y images IH]; intros i0 [|i] x E U; cbn [nth_error] in E; try discriminate; cbn [image_lookup last_entry].
  - injection E as <-. rewrite last_entry_none.
    + rewrite str_eqb_refl, Nat.add_0_r. destruct (str_eqb (file_name y) y); reflexivity.
    + intros j z EZ. split; intros Q; discriminate (U (S j) z EZ); auto.
  - rewrite (IH (S i0) i x E).
    + f_equal. lia.
    + intros j z EZ D. specialize (U (S j) z EZ D). lia.
Qed.

Lemma known_ok images ms l : unambiguous images ->
  Forall2 (fun m e => nth_error images (mimage m) = Some (fst e) /\ snd e = (mcol m, mrow m, mcol_sigma m, mrow_sigma m)) ms l ->
  known_measures (image_lookup 0 images) l = map kept_measure ms.
Proof.
  intros U. induction 1 as [|m [x v] ms l (E & EV) F IH]; cbn [known_measures map]; auto.
  cbn [fst snd] in *. subst v.
  rewrite (last_entry_ok images 0 (mimage m) x E).
  - rewrite IH. reflexivity.
  - intros j y EY D. symmetry. exact (U (mimage m) j x y E EY D).
Qed.

Definition grown (net : network) (ps : list point) : network :=
  Net (npoints net ++ ps) (nimages net) (match ps with [] => nntype net | _ => ImageToGround end).

Lemma read_line_ok images n p net : unambiguous images -> complete images p -> cartesian (geodetic (pposition p)) = pposition p ->
  read_line cartesian digits (image_lookup 0 images) net (line_of geodetic images n p) = Ok (add_control_point (kept_point p) net, true).
Proof.
  intros U (NE & IN) GC. unfold line_of. cbn [app]. unfold read_line.
  destruct (read_measures_ok images (pmeasures p) (S (List.length (flat_map (measure_tokens images) (pmeasures p))))) as (l & E & F).
  - apply Nat.lt_succ_r. clear - IN. induction (pmeasures p) as [|m ms IH]; cbn [flat_map List.length]; [lia|].
    rewrite app_length. destruct (IN m (or_introl eq_refl)) as (L & _).
    destruct (nth_error_ex images (mimage m) L) as (x & E). unfold measure_tokens at 1. rewrite E. cbn [List.length].
    specialize (IH ltac:(intros; apply IN; now right)). lia.
  - auto.
  - rewrite E. cbn [bind]. unfold kept_sigma. cbn [vx vy vz].
    assert (P : forall z, ((if z <=? 0 then 1 else z) <=? 0) = false).
    { intros z. destruct (Z.leb_spec z 0); [reflexivity|]. now apply Z.leb_gt. }
    rewrite !P. cbn [orb pmeasures]. rewrite (known_ok images _ _ U F).
    assert (NM : map kept_measure (pmeasures p) <> []) by (destruct (pmeasures p); [contradiction|discriminate]).
    assert (EC : cartesian (V3 (vx (geodetic (pposition p))) (vy (geodetic (pposition p))) (vz (geodetic (pposition p)))) = pposition p).
    { rewrite <- GC at 4. f_equal. destruct (geodetic (pposition p)); reflexivity. }
    rewrite EC. unfold kept_point, kept_sigma. destruct (map kept_measure (pmeasures p)); [contradiction|reflexivity].
Qed.

Lemma grown_add net p ps : is_gcp p = true -> grown (add_control_point p net) ps = grown net (p :: ps).
Proof.
  intros G. unfold grown, add_control_point. cbn [npoints nimages nntype]. rewrite G, andb_true_r, <- app_assoc. cbn [app].
  f_equal. destruct ps; auto. destruct (nntype net); reflexivity.
Qed.

Lemma read_lines_ok images : unambiguous images -> forall ps n net c,
  (forall p, In p ps -> complete images p /\ cartesian (geodetic (pposition p)) = pposition p) ->
  read_lines cartesian digits (image_lookup 0 images) net c (lines_of geodetic images n ps) =
    (grown net (map kept_point ps), Ok (c + List.length ps)%nat).
Proof.
  intros U. induction ps as [|p ps IH]; intros n net c C; cbn [lines_of read_lines map List.length].
  - unfold grown. rewrite app_nil_r, Nat.add_0_r. destruct net; reflexivity.
  - destruct (C p (or_introl eq_refl)) as (CP & GC). rewrite read_line_ok by auto.
    rewrite IH by (intros; apply C; now right). rewrite grown_add by reflexivity. f_equal. f_equal. lia.
Qed.

(** *** Other images *)

Definition keep_in (images images0 : list str) (m : measure) : option measure :=
  match nth_error images (mimage m) with
  | Some x => option_map (fun j => Meas (mcol m) (mrow m) (mcol_sigma m) (mrow_sigma m) j false 3) (last_entry (image_lookup 0 images0) x)
  | None => None
  end.

Lemma last_entry_cases : forall images i0 x,
  match last_entry (image_lookup i0 images) x with
  | Some j => (i0 <= j)%nat /\ refers images x (j - i0)
  | None => forall j, ~ refers images x j
  end.
Proof.
  induction images as [|y images IH]; intros i0 x; cbn [image_lookup last_entry].
  - intros j (z & E & _). destruct j; discriminate.
  - specialize (IH (S i0) x). destruct (last_entry (image_lookup (S i0) images) x) as [j|].
    + destruct IH as (L & (z & E & D)). split; [lia|]. exists z. replace (j - i0)%nat with (S (j - S i0)) by lia. auto.
    + destruct (str_eqb (file_name y) x) eqn:E1; [|destruct (str_eqb y x) eqn:E2].
      * apply str_eqb_spec in E1. split; [lia|]. exists y. rewrite Nat.sub_diag. auto.
      * apply str_eqb_spec in E2. split; [lia|]. exists y. rewrite Nat.sub_diag. auto.
      * apply str_eqb_false in E1. apply str_eqb_false in E2. intros [|j] (z & E & D); cbn [nth_error] in E.
        -- injection E as <-. destruct D as [D|D]; contradiction.
        -- apply (IH j). exists z. auto.
Qed.

Lemma known_other images images0 ms l :
  Forall2 (fun m e => nth_error images (mimage m) = Some (fst e) /\ snd e = (mcol m, mrow m, mcol_sigma m, mrow_sigma m)) ms l ->
  known_measures (image_lookup 0 images0) l = all_some (keep_in images images0) ms.
Proof.
  induction 1 as [|m [x v] ms l (E & EV) F IH]; cbn [known_measures all_some]; auto.
  cbn [fst snd] in *. subst v. unfold keep_in at 1. rewrite E. destruct (last_entry (image_lookup 0 images0) x); cbn [option_map]; now rewrite IH.
Qed.

Lemma read_line_other images images0 n p net : complete images p -> cartesian (geodetic (pposition p)) = pposition p ->
  read_line cartesian digits (image_lookup 0 images0) net (line_of geodetic images n p) =
    let p' := kept_with (keep_in images images0) p in
    match pmeasures p' with [] => Ok (net, false) | _ => Ok (add_control_point p' net, true) end.
Proof.
  intros (NE & IN) GC. unfold line_of. cbn [app]. unfold read_line.
  destruct (read_measures_ok images (pmeasures p) (S (List.length (flat_map (measure_tokens images) (pmeasures p))))) as (l & E & F).
  - apply Nat.lt_succ_r. clear - IN. induction (pmeasures p) as [|m ms IH]; cbn [flat_map List.length]; [lia|].
    rewrite app_length. destruct (IN m (or_introl eq_refl)) as (L & _).
    destruct (nth_error_ex images (mimage m) L) as (x & E). unfold measure_tokens at 1. rewrite E. cbn [List.length].
    specialize (IH ltac:(intros; apply IN; now right)). lia.
  - auto.
  - rewrite E. cbn [bind]. unfold kept_sigma. cbn [vx vy vz].
    assert (P : forall z, ((if z <=? 0 then 1 else z) <=? 0) = false).
    { intros z. destruct (Z.leb_spec z 0); [reflexivity|]. now apply Z.leb_gt. }
    rewrite !P. cbn [orb pmeasures kept_with]. rewrite (known_other images images0 _ _ F).
    assert (EC : cartesian (V3 (vx (geodetic (pposition p))) (vy (geodetic (pposition p))) (vz (geodetic (pposition p)))) = pposition p).
    { rewrite <- GC at 4. f_equal. destruct (geodetic (pposition p)); reflexivity. }
    rewrite EC. reflexivity.
Qed.

Lemma read_lines_other images images0 : forall ps n net c,
  (forall p, In p ps -> complete images p /\ cartesian (geodetic (pposition p)) = pposition p) ->
  let l := with_some_measures (map (kept_with (keep_in images images0)) ps) in
  read_lines cartesian digits (image_lookup 0 images0) net c (lines_of geodetic images n ps) =
    (grown net l, Ok (c + List.length l)%nat).
Proof.
  induction ps as [|p ps IH]; intros n net c C; cbn [lines_of read_lines map List.length with_some_measures filter].
  - unfold grown. rewrite app_nil_r, Nat.add_0_r. destruct net; reflexivity.
  - destruct (C p (or_introl eq_refl)) as (CP & GC). rewrite read_line_other by auto. cbv zeta.
    destruct (pmeasures (kept_with (keep_in images images0) p)).
    + apply IH. intros; apply C; now right.
    + rewrite IH by (intros; apply C; now right). cbn [List.length]. rewrite grown_add by reflexivity. f_equal. f_equal.
      unfold with_some_measures. lia.
Qed.
End Files.
