From Coq Require Import List ZArith Lia Bool Ascii String.
From Verif Require Import Lib.Base Lib.Lists Lib.Str CNet.Model CNet.Spec CNet.Proofs.
Import ListNotations.
Open Scope Z_scope.

(** ** C65: measures and points *)

(** find gives the position of the first measure equal to the query, and the
    number of measures if there is none. *)
Theorem find_first p q :
  (find p q <= List.length (pmeasures p))%nat /\
  (forall i m, (i < find p q)%nat -> nth_error (pmeasures p) i = Some m -> ~ alike m q) /\
  (forall m, nth_error (pmeasures p) (find p q) = Some m -> alike m q).
Proof.
  unfold find. destruct (find_from_ok q (pmeasures p) 0) as (j & -> & L & B & A). cbn [Nat.add]. auto.
Qed.

(** find_measure gives the first point that has a measure equal to the query, and
    the number of points if there is none. *)
Theorem find_measure_first net q :
  (find_measure net q <= List.length (npoints net))%nat /\
  (forall i p m, (i < find_measure net q)%nat -> nth_error (npoints net) i = Some p -> In m (pmeasures p) -> ~ alike m q) /\
  (forall p, nth_error (npoints net) (find_measure net q) = Some p -> exists m, In m (pmeasures p) /\ alike m q).
Proof.
  unfold find_measure.
  assert (G : forall ps i, exists j, find_measure_from i ps q = (i + j)%nat /\ (j <= List.length ps)%nat /\
    (forall n p m, (n < j)%nat -> nth_error ps n = Some p -> In m (pmeasures p) -> ~ alike m q) /\
    (forall p, nth_error ps j = Some p -> exists m, In m (pmeasures p) /\ alike m q)).
  { induction ps as [|p ps IH]; intros i; cbn [find_measure_from].
    - exists O. split; [lia|]. split; [cbn; lia|]. split; [intros; lia|]. intros p E. discriminate.
    - destruct (find_first p q) as (L & B & A). destruct (Nat.eqb_spec (find p q) (List.length (pmeasures p))) as [E|N]; cbn [negb].
      + destruct (IH (S i)) as (j & -> & Lj & Bj & Aj). exists (S j). cbn [List.length]. split; [lia|]. split; [lia|]. split; auto.
        intros [|n] p' m Hn EP I; cbn [nth_error] in EP.
        * injection EP as <-. apply In_nth_error in I. destruct I as (k & EK).
          apply (B k m); auto. rewrite E. eapply nth_error_lt; eauto.
        * apply (Bj n p' m); auto. lia.
      + exists O. split; [lia|]. cbn [List.length]. split; [lia|]. split; [intros; lia|]. intros p' EP. injection EP as <-.
        destruct (nth_error_ex (pmeasures p) (find p q) ltac:(lia)) as (m & EM). exists m. split; [eapply nth_error_In; eauto|auto]. }
  destruct (G (npoints net) O) as (j & -> & L & B & A). cbn [Nat.add]. auto.
Qed.

(** delete_measure takes out the measure at the index, and nothing else; an index
    outside is refused. *)
Theorem delete_measure_exact i p :
  ((i < List.length (pmeasures p))%nat /\ exists a m b p',
     pmeasures p = a ++ m :: b /\ List.length a = i /\ delete_measure i p = Ok p' /\
     pmeasures p' = a ++ b /\ pignore p' = pignore p /\ pposition p' = pposition p /\ psigma p' = psigma p /\ pptype p' = pptype p) \/
  ((List.length (pmeasures p) <= i)%nat /\ delete_measure i p = Throw LogicErr).
Proof.
  unfold delete_measure. destruct (Nat.leb_spec (List.length (pmeasures p)) i) as [L|L]; [right; auto|left; split; auto].
  destruct (erase_at_ok (pmeasures p) i L) as (a & m & b & E & LA & EE). exists a, m, b. eexists. rewrite EE.
  repeat split; auto.
Qed.

(** Likewise for the points of a network. *)
Theorem delete_control_point_exact i net :
  ((i < List.length (npoints net))%nat /\ exists a p b net',
     npoints net = a ++ p :: b /\ List.length a = i /\ delete_control_point i net = Ok net' /\
     npoints net' = a ++ b /\ nimages net' = nimages net /\ nntype net' = nntype net) \/
  ((List.length (npoints net) <= i)%nat /\ delete_control_point i net = Throw LogicErr).
Proof.
  unfold delete_control_point. destruct (Nat.leb_spec (List.length (npoints net)) i) as [L|L]; [right; auto|left; split; auto].
  destruct (erase_at_ok (npoints net) i L) as (a & p & b & E & LA & EE). exists a, p, b. eexists. rewrite EE.
  repeat split; auto.
Qed.

(** A network built with the calls that add and delete points: the points are
    counted by their types, and a network with ground control points is of type
    ImageToGround. *)
Theorem points_counted net : made net ->
  num_ground_control_points net = count_of GroundControlPoint net /\
  num_tie_points net = count_of TiePoint net /\
  (count_of GroundControlPoint net <> O -> nntype net = ImageToGround).
Proof.
  intros M. apply made_grounded in M.
  assert (E : forall t f, (forall p, f p = match pptype p, t with
    | GroundControlPoint, GroundControlPoint | TiePoint, TiePoint | PointFromDem, PointFromDem => true | _, _ => false end) ->
    List.length (filter f (npoints net)) = count_of t net).
  { intros t f F. unfold count_of. f_equal. apply filter_ext. exact F. }
  assert (EG : List.length (filter is_gcp (npoints net)) = count_of GroundControlPoint net).
  { apply E. intros p. unfold is_gcp. destruct (pptype p); reflexivity. }
  assert (GT : count_of GroundControlPoint net <> O -> nntype net = ImageToGround).
  { rewrite <- EG. intros N. destruct (filter is_gcp (npoints net)) as [|p l] eqn:F; [contradiction|].
    assert (I : In p (filter is_gcp (npoints net))) by (rewrite F; now left). apply filter_In in I. destruct I as (I & Q). exact (M p I Q). }
  split; [|split; auto].
  - unfold num_ground_control_points. rewrite count_points_ok, EG. destruct (count_of GroundControlPoint net) as [|n] eqn:C.
    + destruct (negb _); reflexivity.
    + rewrite GT by discriminate. reflexivity.
  - unfold num_tie_points. rewrite count_points_ok. apply E. intros p. unfold is_tie. destruct (pptype p); reflexivity.
Qed.

(** add_control_points is the same as adding the points one by one. *)
Theorem add_points_one_by_one ps net :
  add_control_points ps net = fold_left (fun n p => add_control_point p n) ps net.
Proof.
  revert net. induction ps as [|p ps IH]; intros net; cbn [fold_left].
  - unfold add_control_points. cbn [existsb]. rewrite app_nil_r. destruct net as [a b [ | | ]]; reflexivity.
  - rewrite <- IH. unfold add_control_points, add_control_point. cbn [npoints nimages nntype existsb]. rewrite <- app_assoc. cbn [app]. f_equal.
    destruct (nntype net), (is_gcp p), (existsb is_gcp ps); reflexivity.
Qed.

(** net[i].set_type(t). *)
Definition set_point_type (i : nat) (t : ptype) (net : network) : network :=
  match nth_error (npoints net) i with
  | Some p => Net (upd (npoints net) i (Point (pmeasures p) (pignore p) (pposition p) (psigma p) t)) (nimages net) (nntype net)
  | None => net
  end.

(** A point that becomes a ground control point when it is already in the network
    is not counted: the type of the network is only changed when points are
    added. *)
Theorem changed_points_counted_refuted :
  ~ (forall net i t, made net -> num_ground_control_points (set_point_type i t net) = count_of GroundControlPoint (set_point_type i t net)).
Proof.
  intros F.
  assert (M : made (add_control_point (new_point TiePoint) (Net [] [] ImageToImage))) by (repeat constructor).
  specialize (F _ O GroundControlPoint M). discriminate F.
Qed.

(** The index add_image_name returns leads to the name. *)
Theorem image_names_found net x net' i : add_image_name x net = (net', i) ->
  (forall m, mimage m = i -> get_image_name net' m = x) /\
  (forall m, (mimage m < i)%nat -> get_image_name net' m = get_image_name net m) /\
  (forall m, (i < mimage m)%nat -> get_image_name net' m = []).
Proof.
  unfold add_image_name. intros E. injection E as <- <-. unfold get_image_name. cbn [nimages]. repeat split; intros m H.
  - rewrite H, nth_error_snoc. reflexivity.
  - rewrite nth_error_app1 by auto. reflexivity.
  - assert (N : nth_error (nimages net ++ [x]) (mimage m) = None) by (apply nth_error_None; rewrite app_length; cbn [List.length]; lia).
    now rewrite N.
Qed.

Definition m1 := new_measure 10 20 1 2 0.
Definition m2 := new_measure 30 40 3 4 1.
Definition p1 := Point [m1; m2] false (V3 7 8 9) (V3 0 5 6) TiePoint.
Definition p2 := Point [m2] false (V3 1 2 3) (V3 1 1 1) GroundControlPoint.
Definition images := [lit "a/x.tif"; lit "b/y.tif"].
Definition net2 := add_control_points [p1; p2] (Net [] images Singleton).

Example network_met :
  find p1 m2 = 1%nat /\ find p2 m1 = 1%nat /\ find_measure net2 m2 = O /\
  num_ground_control_points net2 = 1%nat /\ num_tie_points net2 = 1%nat /\
  delete_control_point 0 net2 = Ok (Net [p2] images ImageToGround) /\ delete_measure 1 p1 = Ok (with_measures [m1] p1).
Proof. repeat split. Qed.

(** ** C65: files of ground control points *)

(** Every point becomes one line: its number, the latitude, longitude and height,
    its standard deviations and its measures. *)
Theorem gcp_file_lines geodetic net : (forall p, In p (npoints net) -> complete (nimages net) p) ->
  exists ts, write_gcp geodetic net = (ts, Ok tt) /\
    lines [] ts = [Header] :: lines_of geodetic (nimages net) 1 (npoints net).
Proof.
  intros C. unfold write_gcp. rewrite write_points_ok by auto. eexists. split; [reflexivity|].
  change (Header :: End :: ?t) with ([Header] ++ End :: t). rewrite lines_step.
  - cbn [app]. f_equal. apply lines_ended. apply lines_no_end.
  - cbn [In]. intros [H|[]]. discriminate.
Qed.

(** A measure of an image that is not in the list makes the call fail. *)
Theorem gcp_file_bad_image geodetic net a p b : npoints net = a ++ p :: b ->
  (forall q, In q a -> complete (nimages net) q) ->
  (exists m, In m (pmeasures p) /\ (List.length (nimages net) <= mimage m)%nat) ->
  snd (write_gcp geodetic net) = Throw ArgumentErr.
Proof.
  intros E C (m & I & L).
  assert (W : snd (write_measures (nimages net) (pmeasures p)) = Throw ArgumentErr).
  { clear - I L. induction (pmeasures p) as [|m' ms IH]; [destruct I|]. cbn [write_measures].
    destruct I as [->|I].
    - assert (N : nth_error (nimages net) (mimage m) = None) by (apply nth_error_None; auto). now rewrite N.
    - specialize (IH I). destruct (nth_error (nimages net) (mimage m')); [|reflexivity].
      destruct (write_measures (nimages net) ms). exact IH. }
  unfold write_gcp. rewrite E.
  assert (G : forall n, snd (write_points geodetic (nimages net) n (a ++ p :: b)) = Throw ArgumentErr).
  { clear E. induction a as [|q a IH]; intros n; cbn [app write_points].
    - destruct (write_measures (nimages net) (pmeasures p)) as [t r]. cbn [snd] in W. subst r. reflexivity.
    - destruct (C q (or_introl eq_refl)) as (NE & IN).
      rewrite write_measures_ok by (auto; intros x Ix; apply IN; auto).
      specialize (IH ltac:(intros; apply C; now right) (n + 1)).
      destruct (write_points geodetic (nimages net) (n + 1) (a ++ p :: b)). exact IH. }
  specialize (G 0). destruct (write_points geodetic (nimages net) 0 (a ++ p :: b)). exact G.
Qed.

(** Reading a file that was written gives the points back, as ground control
    points: the same positions and measures, and the same standard deviations
    with 1 for those that are not positive.  The names of the images have to be
    unambiguous. *)
Theorem gcp_file_round_trip geodetic cartesian digits net net0 :
  (forall p, In p (npoints net) -> complete (nimages net) p /\ cartesian (geodetic (pposition p)) = pposition p) ->
  unambiguous (nimages net) -> nimages net0 = nimages net ->
  exists ts net', write_gcp geodetic net = (ts, Ok tt) /\
    read_gcp cartesian digits net0 ts = (net', Ok (List.length (npoints net))) /\
    npoints net' = npoints net0 ++ map kept_point (npoints net) /\
    nimages net' = nimages net0 /\
    nntype net' = match npoints net with [] => nntype net0 | _ => ImageToGround end.
Proof.
  intros C U EI. destruct (gcp_file_lines geodetic net) as (ts & W & L); [intros; now apply C|].
  exists ts. eexists. split; [exact W|]. unfold read_gcp. rewrite L, EI. cbn [read_lines read_line].
  rewrite (read_lines_ok geodetic cartesian digits (nimages net) U (npoints net)) by auto.
  split; [reflexivity|]. unfold grown. cbn [npoints nimages nntype]. split; [reflexivity|]. split; [exact EI|].
  destruct (npoints net); reflexivity.
Qed.

(** Reading the file into a network with other images: measures of images that are
    not in its list are dropped, and so are points that have no others; the other
    measures get the number of an image with that name or with a name that ends
    so. *)
Theorem gcp_file_other_images geodetic cartesian digits net net0 :
  (forall p, In p (npoints net) -> complete (nimages net) p /\ cartesian (geodetic (pposition p)) = pposition p) ->
  exists ts net' keep, write_gcp geodetic net = (ts, Ok tt) /\
    (forall m x, nth_error (nimages net) (mimage m) = Some x ->
       match keep m with
       | Some m' => exists j, refers (nimages net0) x j /\ m' = Meas (mcol m) (mrow m) (mcol_sigma m) (mrow_sigma m) j false 3
       | None => forall j, ~ refers (nimages net0) x j
       end) /\
    let points := with_some_measures (map (kept_with keep) (npoints net)) in
    read_gcp cartesian digits net0 ts = (net', Ok (List.length points)) /\
    npoints net' = npoints net0 ++ points /\ nimages net' = nimages net0.
Proof.
  intros C. destruct (gcp_file_lines geodetic net) as (ts & W & L); [intros; now apply C|].
  exists ts. eexists. exists (keep_in (nimages net) (nimages net0)). split; [exact W|]. split.
  - intros m x E. unfold keep_in. rewrite E. pose proof (last_entry_cases (nimages net0) 0 x) as LC.
    destruct (last_entry (image_lookup 0 (nimages net0)) x) as [j|]; cbn [option_map]; auto.
    rewrite Nat.sub_0_r in LC. exists j. split; auto. apply LC.
  - cbv zeta. unfold read_gcp. rewrite L. cbn [read_lines read_line].
    rewrite (read_lines_other geodetic cartesian digits (nimages net) (nimages net0) (npoints net)) by auto.
    split; [reflexivity|]. unfold grown. cbn [npoints nimages]. split; reflexivity.
Qed.

(** A point without measures leaves its line open, and the next point is written
    on the same line: in general there are fewer lines than points. *)
Theorem gcp_file_line_per_point_refuted :
  ~ (forall geodetic net ts, write_gcp geodetic net = (ts, Ok tt) -> List.length (lines [] ts) = S (List.length (npoints net))).
Proof.
  intros F.
  assert (E : write_gcp (fun p => p) (Net [with_measures [] p1; p2] images ImageToGround) =
    (fst (write_gcp (fun p => p) (Net [with_measures [] p1; p2] images ImageToGround)), Ok tt)) by reflexivity.
  apply F in E. discriminate E.
Qed.

(** What is written cannot always be read: standard deviations of measures that
    are not positive are written, but make reading fail. *)
Theorem gcp_file_readable_refuted :
  ~ (forall cartesian digits net ts, write_gcp (fun p => p) net = (ts, Ok tt) -> exists net' n, read_gcp cartesian digits net ts = (net', Ok n)).
Proof.
  intros F.
  set (net := Net [with_measures [new_measure 1 2 0 0 0] p1] images ImageToGround).
  destruct (F (fun p => p) (fun _ => []) net (fst (write_gcp (fun p => p) net)) eq_refl) as (net' & n & E). discriminate E.
Qed.

(** The images are also looked up by the last part of the name: with a file of
    the same name in another directory the measures go to the wrong image. *)
Theorem gcp_file_right_image_refuted :
  ~ (forall net ts net' n, NoDup (nimages net) -> (forall p, In p (npoints net) -> complete (nimages net) p) ->
       write_gcp (fun p => p) net = (ts, Ok tt) ->
       read_gcp (fun p => p) (fun _ => []) (Net [] (nimages net) ImageToGround) ts = (net', Ok n) ->
       npoints net' = map kept_point (npoints net)).
Proof.
  intros F.
  set (net := Net [p2; with_measures [m1] p1] [lit "x.tif"; lit "a/x.tif"] ImageToGround).
  specialize (F net (fst (write_gcp (fun p => p) net)) (fst (read_gcp (fun p => p) (fun _ => []) (Net [] (nimages net) ImageToGround) (fst (write_gcp (fun p => p) net)))) 2%nat).
  assert (E : npoints (fst (read_gcp (fun p => p) (fun _ => []) (Net [] (nimages net) ImageToGround) (fst (write_gcp (fun p => p) net)))) = map kept_point (npoints net)).
  { apply F.
    - constructor; [cbn [In]; intros [Q|[]]; discriminate|]. constructor; [intros []|constructor].
    - intros p [<-|[<-|[]]]; (split; [discriminate|]); intros m [<-|[]]; cbn; lia.
    - reflexivity.
    - vm_compute. reflexivity. }
  vm_compute in E. discriminate E.
Qed.

Example gcp_file_met :
  (forall p, In p (npoints net2) -> complete (nimages net2) p) /\ unambiguous (nimages net2) /\
  fst (write_gcp (fun p => p) net2) =
    [Header; End;
     Num 1; Num 8; Num 7; Num 9; Num 1; Num 5; Num 6;
     Name (lit "a/x.tif"); Num 10; Num 20; Num 1; Num 2; Name (lit "b/y.tif"); Num 30; Num 40; Num 3; Num 4; End;
     Num 2; Num 2; Num 1; Num 3; Num 1; Num 1; Num 1; Name (lit "b/y.tif"); Num 30; Num 40; Num 3; Num 4; End].
Proof.
  split; [|split; [|reflexivity]].
  - intros p [<-|[<-|[]]]; (split; [discriminate|]); intros m I; repeat (destruct I as [<-|I]); try destruct I; cbn; lia.
  - intros i j x y EI EJ D.
    destruct i as [|[|i]]; cbn in EI; try (destruct i; discriminate); injection EI as <-;
    destruct j as [|[|j]]; cbn in EJ; try (destruct j; discriminate); injection EJ as <-; auto;
    destruct D as [D|D]; vm_compute in D; discriminate.
Qed.

Example other_images_met :
  let net0 := Net [] [lit "b/y.tif"] ImageToGround in
  npoints (fst (read_gcp (fun p => p) (fun _ => []) net0 (fst (write_gcp (fun p => p) (Net [p1; with_measures [m1] p2] images ImageToGround))))) =
    [Point [new_measure 30 40 3 4 0] false (V3 7 8 9) (V3 1 5 6) GroundControlPoint].
Proof. vm_compute. reflexivity. Qed.

Print Assumptions find_first.
Print Assumptions find_measure_first.
Print Assumptions delete_measure_exact.
Print Assumptions delete_control_point_exact.
Print Assumptions points_counted.
Print Assumptions add_points_one_by_one.
Print Assumptions changed_points_counted_refuted.
Print Assumptions image_names_found.
Print Assumptions gcp_file_lines.
Print Assumptions gcp_file_bad_image.
Print Assumptions gcp_file_round_trip.
Print Assumptions gcp_file_other_images.
Print Assumptions gcp_file_line_per_point_refuted.
Print Assumptions gcp_file_readable_refuted.
Print Assumptions gcp_file_right_image_refuted.
