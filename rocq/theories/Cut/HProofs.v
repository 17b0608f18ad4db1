From Coq Require Import List ZArith QArith Bool Lia Lqa Permutation.
From Verif Require Import Lib.Base Lib.Lists Cut.Model Cut.Spec Cut.Proofs Cut.Cycles.
Import ListNotations.
Open Scope nat_scope.

(** ** Labels *)

Definition b2z (b : bool) : Z := if b then 1%Z else 0%Z.
Definition is_out (o : label) : bool := match o with Some true => true | _ => false end.
Definition is_in (o : label) : bool := match o with Some false => true | _ => false end.

Lemma run_count ls : forall s s', run s ls = Some s' -> (b2z s + Z.of_nat (length (filter is_in ls)) - Z.of_nat (length (filter is_out ls)) = b2z s')%Z.
Proof.
  induction ls as [|[[|]|] ls IH]; intros s s' R; cbn [run] in R.
  - injection R as ->. cbn. lia.
  - destruct s; [|discriminate]. apply IH in R. cbn [filter is_in is_out length b2z] in *. lia.
  - destruct s; [discriminate|]. apply IH in R. cbn [filter is_in is_out length b2z] in *. lia.
  - destruct s; [|discriminate]. apply IH in R. cbn [filter is_in is_out] in *. lia.
Qed.

Lemma run_first o ls s s' : run s (o :: ls) = Some s' -> s = negb (is_in o) /\ run (negb (is_out o)) ls = Some s'.
Proof. destruct o as [[|]|], s; cbn [run is_in is_out negb]; auto; discriminate. Qed.

Lemma run_next ls : forall s s', run s ls = Some s' -> forall i x, nth_error ls i = Some x ->
  match nth_error ls (S i) with Some y => is_out x = is_in y | None => s' = negb (is_out x) end.
Proof.
  induction ls as [|o ls IH]; intros s s' R [|i] x E; try discriminate; cbn [nth_error] in E; apply run_first in R; destruct R as (_ & R).
  - injection E as ->. cbn [nth_error]. destruct ls as [|y ls]; cbn [nth_error].
    + cbn [run] in R. congruence.
    + apply run_first in R. destruct R as (E & _). destruct (is_out x), (is_in y); cbn in E; congruence.
  - cbn [nth_error]. eapply IH; eauto.
Qed.

Lemma run_cyclic ls s : run s ls = Some s -> forall i x y, nth_error ls i = Some x -> nth_error ls (Nat.modulo (i + 1) (length ls)) = Some y ->
  is_out x = is_in y.
Proof.
  intros R i x y EX EY. pose proof (nth_error_lt _ _ _ EX) as LI. pose proof (run_next _ _ _ R _ _ EX) as N.
  destruct (Nat.eq_dec (i + 1) (length ls)) as [E|NE].
  - rewrite E, Nat.mod_same in EY by lia. destruct (nth_error ls (S i)) eqn:E2; [apply nth_error_lt in E2; lia|].
    destruct ls as [|o ls]; [discriminate|]. cbn [nth_error] in EY. injection EY as ->. apply run_first in R. destruct R as (R & _).
    destruct (is_out x), (is_in y), s; cbn in *; congruence.
  - rewrite Nat.mod_small in EY by lia. rewrite Nat.add_1_r in EY. now rewrite EY in N.
Qed.

(** ** Points on the line *)

Section Marks.
Variables nx ny H : Q.
Notation d := (dot nx ny).

Lemma in_marks L : forall i c, In c (marks_of nx ny i L) <->
  exists k p o, nth_error L k = Some (p, Some o) /\ c = Mark (along nx ny p) (i + k) o (-1).
Proof.
  induction L as [|[p [o|]] L IH]; intros i c; cbn [marks_of].
  - split; [intros []|]. intros ([|k] & p & o & E & _); discriminate.
  - cbn [In]. rewrite IH. split.
    + intros [<-|(k & q & o' & E & ->)].
      * exists 0, p, o. rewrite Nat.add_0_r. auto.
      * exists (S k), q, o'. rewrite Nat.add_succ_r. auto.
    + intros ([|k] & q & o' & E & ->); cbn [nth_error] in E.
      * injection E as -> ->. rewrite Nat.add_0_r. auto.
      * right. exists k, q, o'. rewrite Nat.add_succ_r. auto.
  - rewrite IH. split.
    + intros (k & q & o' & E & ->). exists (S k), q, o'. rewrite Nat.add_succ_r. auto.
    + intros ([|k] & q & o' & E & ->); cbn [nth_error] in E; [discriminate|]. exists k, q, o'. rewrite Nat.add_succ_r. auto.
Qed.
Lemma marks_nodup L : forall i, NoDup (map mindex (marks_of nx ny i L)).
Proof.
  induction L as [|[p [o|]] L IH]; intros i; cbn [marks_of map mindex]; [constructor| |auto]. constructor; auto.
  intros I. apply in_map_iff in I. destruct I as (c & E & I). apply in_marks in I. destruct I as (k & q & o' & _ & ->). cbn [mindex] in E. lia.
Qed.
Lemma marks_count L f : forall i, length (filter (fun c => f (mout c)) (marks_of nx ny i L)) =
  length (filter (fun o : label => match o with Some b => f b | None => false end) (map snd L)).
Proof.
  induction L as [|[p [o|]] L IH]; intros i; cbn [marks_of map snd filter mout]; auto.
  destruct (f o); cbn [length]; auto.
Qed.
End Marks.

Lemma set_next_ok ms : forall ins, length (filter mout ms) <= length ins ->
  exists ms', set_next ins ms = Ok ms' /\ map mindex ms' = map mindex ms /\ map mout ms' = map mout ms /\
    forall c, In c ms' -> mout c = true -> exists j, mnext c = Z.of_nat j /\ In (mindex c, j) (combine (map mindex (filter mout ms)) ins).
Proof.
  induction ms as [|c ms IH]; intros ins LE; cbn [set_next filter].
  - exists []. repeat split; auto. intros c [].
  - cbn [filter] in LE. destruct (mout c) eqn:EO.
    + destruct ins as [|i ins]; cbn [length] in LE; [lia|]. destruct (IH ins ltac:(lia)) as (ms' & -> & E1 & E2 & N). cbn [bind].
      eexists. split; [reflexivity|]. cbn [map mindex mout]. rewrite E1, E2. split; [reflexivity|]. split; [now rewrite EO|]. intros c' [<-|I] O; cbn [combine In mindex mnext].
      * exists i. auto.
      * destruct (N c' I O) as (j & E & J). exists j. auto.
    + destruct (IH ins LE) as (ms' & -> & E1 & E2 & N). cbn [bind]. eexists. split; [reflexivity|]. cbn [map]. rewrite E1, E2. split; [reflexivity|]. split; [reflexivity|].
      intros c' [<-|I] O; [congruence|auto].
Qed.

Lemma combine_inj {A B} (l : list A) (m : list B) a a' b : NoDup m -> In (a, b) (combine l m) -> In (a', b) (combine l m) -> a = a'.
Proof.
  revert m. induction l as [|x l IH]; intros [|y m] ND I J; try contradiction. cbn [combine In] in I, J. inversion ND; subst.
  destruct I as [I|I], J as [J|J].
  - congruence.
  - injection I as -> ->. apply in_combine_r in J. contradiction.
  - injection J as -> ->. apply in_combine_r in I. contradiction.
  - eapply IH; eauto.
Qed.

Lemma find_index ms i : NoDup (map mindex ms) ->
  match find (fun c => Nat.eqb (mindex c) i) ms with
  | Some c => In c ms /\ mindex c = i /\ forall c', In c' ms -> mindex c' = i -> c' = c
  | None => ~ In i (map mindex ms)
  end.
Proof.
  intros ND. destruct (find _ ms) as [c|] eqn:E.
  - apply find_some in E. destruct E as (I & E). apply Nat.eqb_eq in E. split; auto. split; auto. intros c' I' E'.
    clear - ND I I' E E'. induction ms as [|a ms IH]; [destruct I|]. cbn [map] in ND. inversion ND as [|? ? NI ND']; subst.
    destruct I as [->|I], I' as [->|I']; auto.
    + exfalso. apply NI. rewrite <- E'. now apply in_map.
    + exfalso. apply NI. rewrite E'. now apply in_map.
  - intros I. apply in_map_iff in I. destruct I as (c & <- & I). eapply find_none in E; eauto. cbv beta in E. rewrite Nat.eqb_refl in E. discriminate.
Qed.

(** ** Sums *)

Lemma sumn_index g L t : sumn g L t =
  sumz (fun i => match nth_error L i with
                 | Some (p, o) => if is_out o then 0%Z else g p (nth (S i) (map fst L ++ [t]) (0, 0)%Q)
                 | None => 0%Z end) (seq 0 (length L)).
Proof.
  induction L as [|[p o] L IH]; [reflexivity|]. cbn [sumn length seq]. rewrite sumz_cons. f_equal.
  - cbn [nth_error]. destruct o as [[|]|]; cbn [is_out]; auto; destruct L as [|[q o'] L]; reflexivity.
  - rewrite IH, <- seq_shift, sumz_map. apply sumz_ext. intros i _. reflexivity.
Qed.

Lemma edges_sum g first l : path_sum g first l = match l with [] => 0%Z | v :: l' => sumz (fun e => g (fst e) (snd e)) (combine (v :: l') (l' ++ [first])) end.
Proof.
  induction l as [|v l IH]; [reflexivity|]. cbn [path_sum]. rewrite IH. destruct l as [|n l]; [reflexivity|]. cbn [app combine]. rewrite !sumz_cons. reflexivity.
Qed.
Definition esum (g : pt -> pt -> Z) (l : list pt) : Z := sumz (fun e => g (fst e) (snd e)) (edges l).
Lemma esum_path g v l : esum g (v :: l) = path_sum g v (v :: l).
Proof. now rewrite edges_sum. Qed.

(** ** The cut *)

(** Sums that do not change when a polygon is cut. *)
Definition additive (nx ny H : Q) (g : pt -> pt -> Z) : Prop :=
  (forall a b, H <= dot nx ny a -> H <= dot nx ny b -> g a b = 0%Z)%Q /\
  (forall a b c t, dot nx ny a < H -> H < dot nx ny b -> same c (point_at a b t) -> 0 < t -> t < 1 -> dot nx ny c == H -> g a b = g a c)%Q /\
  (forall a b c t, H < dot nx ny a -> dot nx ny b < H -> same c (point_at a b t) -> 0 < t -> t < 1 -> dot nx ny c == H -> g a b = g c b)%Q.

Section Cut.
Variables nx ny H : Q.
Hypothesis AX : axis nx ny.
Notation d := (dot nx ny).
Variable sort : list mark -> list mark.
Hypothesis SORT : forall l, Permutation (sort l) l.

(** A point of the line between points of [l]. *)
Definition new_point (l : list pt) (q : pt) : Prop :=
  (d q == H)%Q /\ exists a b t, In a l /\ In b l /\ (0 < t /\ t < 1)%Q /\ same q (point_at a b t).

Lemma new_more l m q : incl l m -> new_point l q -> new_point m q.
Proof. intros I (E & a & b & t & A & B & R). split; auto. exists a, b, t. auto. Qed.

Lemma emit_points p v n q o : In (q, o) (emit nx ny H p v n) ->
  (d q <= H)%Q /\ (q = v \/ new_point [v; n] q) /\ (o <> None -> (d q == H)%Q).
Proof.
  assert (NP : ((d v < H /\ H < d n) \/ (H < d v /\ d n < H))%Q -> new_point [v; n] (cut_edge v n nx ny H) /\ (d (cut_edge v n nx ny H) == H)%Q).
  { intros D. destruct (cut_edge_ok nx ny H v n AX D) as (S & T0 & T1 & ON). split; auto. split; auto. eexists v, n, _. split; [now left|]. split; [right; now left|]. eauto. }
  unfold emit. destruct (ltqP (d v) H) as [A|A]; [|destruct (ltqP H (d v)) as [B|B]].
  - destruct (leqP (d n) H) as [C|C]; cbn [In].
    + intros [[= <- <-]|[]]. split; [lra|]. split; auto. congruence.
    + intros [[= <- <-]|[[= <- <-]|[]]].
      * split; [lra|]. split; auto. congruence.
      * destruct (NP ltac:(lra)) as (N & ON). split; [lra|]. auto.
  - destruct (leqP H (d n)) as [C|C]; cbn [In]; [intros []|]. intros [[= <- <-]|[]].
    destruct (NP ltac:(lra)) as (N & ON). split; [lra|]. auto.
  - destruct (Qle_bool H (d p) && Qle_bool H (d n)); [intros []|]. intros [[= <- <-]|[]]. split; [lra|]. split; auto. intros _. lra.
Qed.
Lemma emit_inside p v n : (d v < H)%Q -> In v (map fst (emit nx ny H p v n)).
Proof. intros L. unfold emit. destruct (ltqP (d v) H); [|lra]. destruct (Qle_bool (d n) H); now left. Qed.

Lemma emits_points first l : forall p q o, In (q, o) (emits nx ny H first p l) ->
  (d q <= H)%Q /\ (In q l \/ new_point (first :: l) q) /\ (o <> None -> (d q == H)%Q).
Proof.
  induction l as [|v l IH]; intros p q o I; [destruct I|]. cbn [emits] in I. apply in_app_iff in I. destruct I as [I|I].
  - apply emit_points in I. destruct I as (A & [->|B] & C); split; auto; split; auto; [left; now left|]. right.
    eapply new_more; [|exact B]. intros x [<-|[<-|[]]]; [right; now left|]. destruct l; cbn; auto.
  - apply IH in I. destruct I as (A & [B|B] & C); split; auto; split; auto; [left; now right|]. right.
    eapply new_more; [|exact B]. intros x [<-|J]; cbn; auto.
Qed.
Lemma emits_inside first l : forall p v, In v l -> (d v < H)%Q -> In v (map fst (emits nx ny H first p l)).
Proof.
  induction l as [|w l IH]; intros p v I L; [destruct I|]. cbn [emits]. rewrite map_app, in_app_iff. destruct I as [->|I]; [left; now apply emit_inside|right; auto].
Qed.

Lemma nth_point (L : list (pt * label)) i p o : nth_error L i = Some (p, o) -> point (map fst L) i = p.
Proof. intros E. unfold point. apply nth_error_nth. apply (map_nth_error fst) in E. exact E. Qed.

Lemma wrap_next (l : list pt) i (p : pt) : i < length l -> hd p l = p -> nth (S i) (l ++ [p]) (0, 0)%Q = nth (Nat.modulo (i + 1) (length l)) l (0, 0)%Q.
Proof.
  intros L E. destruct (Nat.eq_dec (i + 1) (length l)) as [EL|NE].
  - rewrite EL, Nat.mod_same by lia. rewrite app_nth2 by lia. replace (S i - length l) with 0 by lia. destruct l; [cbn in L; lia|]. cbn in *. auto.
  - rewrite Nat.mod_small by lia. rewrite app_nth1 by lia. f_equal. lia.
Qed.

Lemma half_ok poly : exists polys, cut_to_half_space nx ny H sort poly = Ok (concat polys, map (@length pt) polys) /\
  (forall q, In q (concat polys) -> (d q <= H)%Q /\ (In q poly \/ new_point poly q)) /\
  (forall q, In q poly -> (d q < H)%Q -> In q (concat polys)) /\
  forall g, additive nx ny H g -> sumz (esum g) polys = esum g poly.
Proof.
  unfold cut_to_half_space. destruct poly as [|first poly'].
  { exists [[]]. cbn. split; auto. split; [intros q []|]. split; [intros q []|]. auto. }
  set (poly := first :: poly'). set (prev := last poly first).
  rewrite (half_loop_emits nx ny H first poly prev [] []). cbn [app length].
  set (L := emits nx ny H first prev poly). set (s := pend nx ny H prev first).
  assert (RUN : run s (map snd L) = Some s).
  { unfold L, s. exact (emits_run nx ny H first poly prev ltac:(discriminate)). }
  assert (PTS : forall q o, In (q, o) L -> (d q <= H)%Q /\ (In q poly \/ new_point poly q) /\ (o <> None -> (d q == H)%Q)).
  { intros q o I. apply emits_points in I. destruct I as (A & [B|B] & C); split; auto; split; auto. right. eapply new_more; [|exact B].
    intros x [<-|J]; auto. now left. }
  assert (INS : forall v, In v poly -> (d v < H)%Q -> In v (map fst L)) by (intros; apply emits_inside; auto).
  assert (SUM : forall g t, additive nx ny H g -> (s = true -> t = first) -> sumn g L t = esum g poly).
  { intros g t (G0 & G1 & G2) T. unfold L, poly. rewrite esum_path. apply emits_sum with (nx := nx) (ny := ny) (H := H); auto. discriminate. }
  assert (HD : s = true -> hd first (map fst L) = first).
  { intros E. unfold L, poly. cbn [emits]. destruct (emit_first nx ny H prev first (match poly' with [] => first | n :: _ => n end) E) as (o & L' & ->). reflexivity. }
  clearbody L s. set (cut := map fst L). assert (LC : length cut = length L) by apply map_length.
  assert (T0 : forall g, additive nx ny H g -> sumn g L (hd first cut) = esum g poly) by (intros; apply SUM; auto).
  assert (PQ : forall q, In q cut -> (d q <= H)%Q /\ (In q poly \/ new_point poly q)).
  { intros q I. apply in_map_iff in I. destruct I as ([q' o] & <- & I). apply PTS in I. tauto. }
  assert (MK := marks_nodup nx ny L 0). assert (IM := in_marks nx ny L 0).
  assert (CI := marks_count nx ny L negb 0). assert (CO := marks_count nx ny L (fun b => b) 0).
  set (marks := marks_of nx ny 0 L) in *. clearbody marks.
  destruct marks as [|m0 marks0] eqn:EM.
  - (* no marks *)
    exists [cut]. cbn [concat map]. rewrite app_nil_r. split; auto. split; auto. split; auto.
    intros g AD. rewrite sumz_cons. cbn [sumz fold_right]. rewrite Z.add_0_r, <- (T0 g AD).
    assert (NO : forall p o, In (p, o) L -> o = None).
    { intros p [o|] I; auto. apply In_nth_error in I. destruct I as (k & E). exfalso. apply (IM (Mark (along nx ny p) (0 + k) o (-1))). eauto. }
    clear - NO. unfold cut. destruct L as [|[p o] L]; [reflexivity|]. cbn [map fst hd]. rewrite esum_path. change (p :: map fst L) with (map fst ((p, o) :: L)).
    assert (G : forall M t, (forall p o, In (p, o) M -> o = None) -> path_sum g t (map fst M) = sumn g M t).
    { clear. induction M as [|[q o] M IH]; intros t NO; [reflexivity|]. cbn [map fst path_sum sumn]. rewrite IH by (intros; eapply NO; right; eauto).
      rewrite (NO q o (or_introl eq_refl)). destruct M as [|[q' o'] M]; reflexivity. }
    apply G, NO.
  - rewrite <- EM in *. clear EM m0 marks0. unfold process_points.
    assert (PM : Permutation (sort marks) marks) by apply SORT. set (ms := sort marks) in *. clearbody ms.
    set (ins := map mindex (filter (fun c => negb (mout c)) ms)).
    assert (FL : forall f, length (filter f ms) = length (filter f marks)).
    { intros f. clear - PM. induction PM; cbn [filter]; auto; repeat (match goal with |- context [if f ?x then _ else _] => destruct (f x) end; cbn [length]); auto; congruence. }
    assert (CNT : length (filter mout ms) = length ins).
    { unfold ins. rewrite map_length, !FL.
      assert (EO : length (filter mout marks) = length (filter is_out (map snd L))).
      { transitivity (length (filter (fun c => mout c) marks)); [reflexivity|]. rewrite CO. apply (f_equal (@length label)), filter_ext. intros [[|]|]; reflexivity. }
      assert (EI : length (filter (fun c => negb (mout c)) marks) = length (filter is_in (map snd L))).
      { rewrite CI. apply (f_equal (@length label)), filter_ext. intros [[|]|]; reflexivity. }
      apply run_count in RUN. lia. }
    destruct (set_next_ok ms ins ltac:(lia)) as (ms' & -> & E1 & E2 & NX). cbn [bind].
    assert (ND' : NoDup (map mindex ms')) by (rewrite E1; apply (Permutation_NoDup (l := map mindex marks)); auto; apply Permutation_map, Permutation_sym, PM).
    assert (NDI : NoDup ins).
    { unfold ins. clear - PM MK. assert (N : NoDup (map mindex ms)) by (apply (Permutation_NoDup (l := map mindex marks)); auto; apply Permutation_map, Permutation_sym, PM).
      clear - N. induction ms as [|c ms IH]; [constructor|]. cbn [map filter] in *. inversion N; subst. destruct (negb (mout c)); cbn [map]; auto. constructor; auto.
      intros I. apply in_map_iff in I. destruct I as (c' & E & I). apply filter_In in I. destruct I as (I & _). apply H1. rewrite <- E. now apply in_map. }
    assert (OUT : forall i o, (exists c, In c ms' /\ mindex c = i /\ mout c = o) <-> exists p, nth_error L i = Some (p, Some o)).
    { intros i o. transitivity (exists c, In c marks /\ mindex c = i /\ mout c = o).
      - assert (Q : forall (a b : list mark), map mindex a = map mindex b -> map mout a = map mout b ->
          (exists c, In c a /\ mindex c = i /\ mout c = o) -> exists c, In c b /\ mindex c = i /\ mout c = o).
        { clear. induction a as [|x a IH]; intros [|y b] A B (c & I & X); try discriminate; [destruct I|]. cbn [map] in A, B. injection A as A1 A. injection B as B1 B.
          destruct I as [->|I].
          - exists y. split; [now left|]. destruct X. split; congruence.
          - destruct (IH b A B ltac:(eauto)) as (c' & I' & X'). exists c'. split; [now right|auto]. }
        split.
        + intros X. apply (Q _ _ E1 E2) in X. destruct X as (c & I & X). exists c. split; auto. eapply Permutation_in; eauto.
        + intros (c & I & X). apply (Q ms ms'); auto. exists c. split; auto. eapply Permutation_in; [apply Permutation_sym; eauto|auto].
      - split.
        + intros (c & I & <- & <-). apply IM in I. destruct I as (k & p & o' & E & ->). exists p. exact E.
        + intros (p & E). exists (Mark (along nx ny p) i o (-1)). split; [|auto]. apply IM. exists i, p, o. auto. }
    assert (INI : forall j, In j ins -> exists p, nth_error L j = Some (p, Some false)).
    { intros j I. unfold ins in I. apply in_map_iff in I. destruct I as (c & <- & I). apply filter_In in I. destruct I as (I & O).
      apply (Permutation_in _ PM) in I. apply IM in I. destruct I as (k & p & o & E & ->). cbn [mout mindex Nat.add] in *. destruct o; [discriminate|]. eauto. }
    set (f := fun i => match nth_error L i with
      | Some (_, Some true) => match find (fun c => Nat.eqb (mindex c) i) ms' with Some c => Z.to_nat (mnext c) | None => 0 end
      | _ => Nat.modulo (i + 1) (length cut) end).
    assert (FOUT : forall i p, nth_error L i = Some (p, Some true) -> exists c, find (fun c => Nat.eqb (mindex c) i) ms' = Some c /\ mout c = true /\
      mnext c = Z.of_nat (f i) /\ In (i, f i) (combine (map mindex (filter mout ms)) ins)).
    { intros i p E. unfold f. rewrite E. pose proof (find_index ms' i ND') as FI. destruct (find _ ms') as [c|].
      - destruct FI as (I & EI & U). destruct (proj2 (OUT i true) ltac:(eauto)) as (c' & I' & EI' & O'). apply U in EI'; auto. subst c'.
        exists c. split; auto. split; auto. destruct (NX c I O') as (j & EJ & IJ). rewrite EJ, Nat2Z.id. rewrite EI in IJ. auto.
      - exfalso. apply FI. destruct (proj2 (OUT i true) ltac:(eauto)) as (c' & I' & <- & O'). now apply in_map. }
    assert (FOTH : forall i p o, nth_error L i = Some (p, o) -> is_out o = false -> f i = Nat.modulo (i + 1) (length cut)).
    { intros i p o E O. unfold f. rewrite E. destruct o as [[|]|]; auto; discriminate. }
    assert (EX : forall i, i < length cut -> exists p o, nth_error L i = Some (p, o)).
    { intros i LI. rewrite LC in LI. destruct (nth_error_ex L i LI) as ([p o] & E). eauto. }
    assert (FTO : forall i p, nth_error L i = Some (p, Some true) -> exists q, nth_error L (f i) = Some (q, Some false)).
    { intros i p E. destruct (FOUT i p E) as (c & _ & _ & _ & I). apply in_combine_r in I. now apply INI. }
    assert (ALLC := all_components nx ny H cut ms' f). destruct ALLC as (cs & EC & PC & CYC).
    + intros i LI. destruct (EX i LI) as (p & o & E). unfold next_point.
      assert (EN : nth_error cut i = Some p) by (apply (map_nth_error fst) in E; exact E). rewrite EN.
      pose proof (nth_error_In _ _ E) as I. apply PTS in I. destruct I as (_ & _ & ON).
      destruct o as [[|]|].
      * rewrite (proj2 (Qeq_bool_iff _ _)) by (apply ON; discriminate). cbn [negb]. destruct (FOUT i p E) as (c & -> & -> & -> & _). reflexivity.
      * rewrite (FOTH i p _ E eq_refl). destruct (Qeq_bool (d p) H); cbn [negb]; auto.
        pose proof (find_index ms' i ND') as FI. destruct (find _ ms') as [c|]; auto. destruct FI as (I & EI & _).
        destruct (mout c) eqn:EO; auto. exfalso. destruct (proj1 (OUT i true) ltac:(eauto)) as (q & E'). congruence.
      * rewrite (FOTH i p _ E eq_refl). destruct (Qeq_bool (d p) H); cbn [negb]; auto.
        pose proof (find_index ms' i ND') as FI. destruct (find _ ms') as [c|]; auto. destruct FI as (I & EI & _).
        exfalso. destruct (proj1 (OUT i (mout c)) ltac:(eauto)) as (q & E'). congruence.
    + intros i LI. destruct (EX i LI) as (p & o & E). destruct (is_out o) eqn:O.
      * destruct o as [[|]|]; try discriminate. destruct (FTO i p E) as (q & E'). apply nth_error_lt in E'. lia.
      * rewrite (FOTH i p o E O). apply Nat.mod_upper_bound. lia.
    + assert (OO : forall i j p q o, i < length cut -> nth_error L i = Some (p, Some true) -> nth_error L j = Some (q, o) -> is_out o = false -> f i <> f j).
      { intros i j p q o LI EI EJ O EQ. destruct (FTO i p EI) as (r & ER). rewrite EQ, (FOTH j q o EJ O) in ER.
        apply (map_nth_error snd) in EJ, ER. cbn [snd] in EJ, ER. rewrite LC, <- (map_length snd) in ER.
        pose proof (run_cyclic _ _ RUN j _ _ EJ ER) as RC. rewrite O in RC. discriminate. }
      intros i j LI LJ EQ. destruct (EX i LI) as (p & o & EI). destruct (EX j LJ) as (q & o' & EJ).
      destruct (is_out o) eqn:O, (is_out o') eqn:O'.
      * destruct o as [[|]|]; try discriminate. destruct o' as [[|]|]; try discriminate.
        destruct (FOUT i p EI) as (_ & _ & _ & _ & I1). destruct (FOUT j q EJ) as (_ & _ & _ & _ & I2). rewrite EQ in I1. eapply combine_inj; eauto.
      * destruct o as [[|]|]; try discriminate. exfalso. eapply (OO i j); eauto.
      * destruct o' as [[|]|]; try discriminate. exfalso. eapply (OO j i); eauto.
      * rewrite (FOTH i p o EI O), (FOTH j q o' EJ O') in EQ.
        destruct (Nat.eq_dec (i + 1) (length cut)) as [A|A], (Nat.eq_dec (j + 1) (length cut)) as [B|B]; try lia.
        -- rewrite A, Nat.mod_same, Nat.mod_small in EQ by lia. lia.
        -- rewrite B, Nat.mod_same, Nat.mod_small in EQ by lia. lia.
        -- rewrite !Nat.mod_small in EQ by lia. lia.
    + rewrite EC. exists (map (map (point cut)) cs). split.
      { f_equal. f_equal. rewrite map_map. apply map_ext. intros c. now rewrite map_length. }
      assert (PX : Permutation (concat (map (map (point cut)) cs)) cut).
      { rewrite <- concat_map. transitivity (map (point cut) (seq 0 (length cut))); [now apply Permutation_map|].
        assert (E : map (point cut) (seq 0 (length cut)) = cut); [|rewrite E; apply Permutation_refl]. unfold point. clear. induction cut as [|p l IH]; [reflexivity|].
        cbn [length seq map nth]. f_equal. rewrite <- seq_shift, map_map. exact IH. }
      split; [intros q I; apply PQ; eapply Permutation_in; eauto|]. split.
      { intros q I LQ. apply (Permutation_in (l := cut)); [apply Permutation_sym, PX|]. apply INS; auto. }
      intros g AD. rewrite <- (T0 g AD). unfold esum. rewrite (cycles_sum cut f g cs CYC), (sumz_perm _ _ _ PC), sumn_index, LC.
      assert (NP : forall i p o, nth_error L i = Some (p, o) -> point cut i = p) by exact (nth_point L).
      apply sumz_ext. intros i I. apply in_seq in I. destruct (EX i ltac:(lia)) as (p & o & E). rewrite E, (NP i p o E).
      destruct (is_out o) eqn:O.
      * destruct o as [[|]|]; try discriminate. destruct (FTO i p E) as (q & E'). rewrite (NP _ _ _ E'). apply AD.
        -- apply nth_error_In, PTS in E. destruct E as (_ & _ & ON). rewrite ON by discriminate. lra.
        -- apply nth_error_In, PTS in E'. destruct E' as (_ & _ & ON). rewrite ON by discriminate. lra.
      * rewrite (FOTH i p o E O). f_equal. unfold point. fold cut. symmetry. apply wrap_next; [lia|].
        destruct cut; [cbn in LC; lia|reflexivity].
Qed.
End Cut.
