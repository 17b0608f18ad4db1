(** C89: progress of tasks and their parts. *)
From Coq Require Import List Bool ZArith QArith Qround Lia Lqa Qfield.
From Verif Require Import Lib.Base GeoRef.Model Progress.Model Progress.Spec.
Import ListNotations.
Local Open Scope Q_scope.

Lemma plt a b : ltq a b = true <-> a < b.
Proof. unfold ltq. rewrite negb_true_iff. split; intros H. - apply Qnot_le_lt. intros C. apply Qle_bool_iff in C. congruence.
  - destruct (Qle_bool b a) eqn:E; [|reflexivity]. apply Qle_bool_iff in E. lra. Qed.
Lemma pge a b : ltq a b = false <-> b <= a.
Proof. unfold ltq. rewrite negb_false_iff. apply Qle_bool_iff. Qed.

Lemma print_done r : done (print_progress r) = done r /\ aborted (print_progress r) = aborted r /\ (keeps r -> keeps (print_progress r)).
Proof. unfold print_progress, keeps. destruct r as [[| |t] a d l]; cbn [knd]; auto. destruct (ltq _ _); cbn [knd done aborted]; repeat split; auto; discriminate. Qed.
Lemma root_report_done r q : keeps r -> done (root_report r q) = q /\ aborted (root_report r q) = aborted r /\ keeps (root_report r q).
Proof.
  intros K. unfold root_report. destruct r as [[| |t] a d l]; cbn [knd lines aborted]; try (exfalso; apply K; reflexivity);
    (split; [apply print_done|]; split; [apply print_done|]; apply print_done; discriminate).
Qed.
Lemma root_increment_done r q : keeps r -> done (root_increment r q) = done r + q /\ aborted (root_increment r q) = aborted r /\ keeps (root_increment r q).
Proof.
  intros K. unfold root_increment. destruct r as [[| |t] a d l]; cbn [knd lines aborted done]; try (exfalso; apply K; reflexivity);
    (split; [apply print_done|]; split; [apply print_done|]; apply print_done; discriminate).
Qed.
Lemma qno a b : ~ a == b -> Qeq_bool (b - a) 0 = false.
Proof. intros N. destruct (Qeq_bool (b - a) 0) eqn:E; [|reflexivity]. apply Qeq_bool_iff in E. exfalso. apply N. lra. Qed.

(* What is reported to a part, or a part of a part, is what the part then shows. *)
Theorem progress_reported ps r q : keeps r -> nonempty ps -> exists q', progress ps (report_progress ps r q) = Some q' /\ q' == q.
Proof.
  intros K. revert q. induction ps as [|(a, b) ps IH]; intros q N; cbn [progress report_progress].
  - exists q. destruct (root_report_done r q K) as (-> & _). split; reflexivity.
  - destruct (IH (a + (b - a) * q)) as (q' & -> & E); [intros x y I; apply N; now right|].
    assert (AB : ~ a == b) by (apply N; now left). rewrite (qno _ _ AB). eexists. split; [reflexivity|]. rewrite E. field. intros C. apply AB. lra.
Qed.
Lemma increment_done ps r q : keeps r -> done (report_increment ps r q) == done r + share ps * q /\ keeps (report_increment ps r q) /\ aborted (report_increment ps r q) = aborted r.
Proof.
  intros K. revert q. induction ps as [|(a, b) ps IH]; intros q; cbn [report_increment share].
  - destruct (root_increment_done r q K) as (-> & A & B). split; [ring|auto].
  - destruct (IH ((b - a) * q)) as (E & A & B). split; [rewrite E; ring|auto].
Qed.
(* An increment of a part raises the whole by its share of it. *)
Theorem increment_shares ps r q : keeps r -> done (report_increment ps r q) == done r + share ps * q.
Proof. intros K. now apply increment_done. Qed.
Lemma progress_shift ps r r' d : nonempty ps -> done r' == done r + share ps * d ->
  exists q q', progress ps r = Some q /\ progress ps r' = Some q' /\ q' == q + d.
Proof.
  revert d. induction ps as [|(a, b) ps IH]; intros d N E; cbn [progress share] in *.
  - exists (done r), (done r'). split; [reflexivity|]. split; [reflexivity|]. rewrite E. ring.
  - assert (AB : ~ a == b) by (apply N; now left). destruct (IH ((b - a) * d)) as (q & q' & -> & -> & F); [intros x y I; apply N; now right|rewrite E; ring|].
    rewrite (qno _ _ AB). do 2 eexists. split; [reflexivity|]. split; [reflexivity|]. rewrite F. field. intros C. apply AB. lra.
Qed.
(* An increment raises what the part shows by itself. *)
Theorem increment_shown ps r q : keeps r -> nonempty ps -> exists p p', progress ps r = Some p /\ progress ps (report_increment ps r q) = Some p' /\ p' == p + q.
Proof. intros K N. apply progress_shift; [exact N|]. now apply increment_shares. Qed.
(* However a part is cut into increments, they add up. *)
Theorem increments_add ps l : forall r, keeps r -> done (fold_left (report_increment ps) l r) == done r + share ps * fold_right Qplus 0 l.
Proof.
  induction l as [|q l IH]; intros r K; cbn [fold_left fold_right]; [ring|].
  destruct (increment_done ps r q K) as (E & K' & _). rewrite (IH _ K'), E. ring.
Qed.
(* Progress between zero and one of proper parts stays between zero and one. *)
Theorem reported_range ps r q : keeps r -> proper ps -> 0 <= q -> q <= 1 -> 0 <= done (report_progress ps r q) /\ done (report_progress ps r q) <= 1.
Proof.
  intros K. revert q. induction ps as [|(a, b) ps IH]; intros q P A B; cbn [report_progress].
  - destruct (root_report_done r q K) as (-> & _). split; assumption.
  - destruct (P a b (or_introl eq_refl)) as (H1 & H2 & H3).
    assert (M : 0 <= (b - a) * q) by (apply Qmult_le_0_compat; lra).
    assert (M2 : 0 <= (b - a) * (1 - q)) by (apply Qmult_le_0_compat; lra).
    apply IH; [intros x y I; apply P; now right|lra|lra].
Qed.
(* A finished part is where its parent ends it: the part shows one. *)
Theorem finished_part full a b ps r : keeps r -> nonempty ((a, b) :: ps) ->
  exists q, progress ((a, b) :: ps) (report_finished full ((a, b) :: ps) r) = Some q /\ q == 1.
Proof.
  intros K N. cbn [report_finished progress]. destruct (progress_reported ps r b K) as (q & -> & E); [intros x y I; apply N; now right|].
  assert (AB : ~ a == b) by (apply N; now left). rewrite (qno _ _ AB). eexists. split; [reflexivity|]. rewrite E. field. intros C. apply AB. lra.
Qed.
(* n of a total, and nothing of no total. *)
Theorem fractional_shown ps r n total : keeps r -> nonempty ps -> exists q, progress ps (report_fractional ps r n total) = Some q /\
  ((1 # 1000000000000000000000000000000) <= total -> q * total == n) /\ (total == 0 -> q == 0).
Proof.
  intros K N. unfold report_fractional. destruct (progress_reported ps r (if ltq (qabs total) (1 # 1000000000000000000000000000000) then 0 else n / total) K N) as (q & -> & E).
  exists q. split; [reflexivity|]. split; intros H.
  - assert (X : ltq (qabs total) (1 # 1000000000000000000000000000000) = false).
    { apply pge. unfold qabs. destruct (ltq total 0) eqn:F; [apply plt in F; lra|exact H]. }
    rewrite X in E. rewrite E. field. lra.
  - assert (X : ltq (qabs total) (1 # 1000000000000000000000000000000) = true).
    { apply plt. unfold qabs. destruct (ltq total 0); lra. }
    now rewrite X in E.
Qed.
(* An abort asked for in any part is seen in every other part of the task, before and after more reports. *)
Theorem abort_seen ps ps' ps2 r q : keeps r -> abort_if_requested ps' (report_increment ps2 (request_abort ps r) q) = Throw OtherErr.
Proof.
  intros K. unfold abort_if_requested, request_abort. 
  assert (A : aborted (root_abort r) = true /\ keeps (root_abort r)).
  { unfold root_abort, keeps in *. destruct r as [[| |t] a d l]; cbn [knd aborted] in *; split; congruence. }
  destruct A as (A & B). destruct (increment_done ps2 (root_abort r) q B) as (_ & _ & E). now rewrite E, A.
Qed.
(* Nobody aborts who was not asked to. *)
Theorem abort_not_seen ps ps2 r q : keeps r -> aborted r = false -> abort_if_requested ps (report_increment ps2 r q) = Ok tt.
Proof. intros K A. unfold abort_if_requested. destruct (increment_done ps2 r q K) as (_ & _ & E). now rewrite E, A. Qed.
(* A NullProgressCallback keeps nothing, through any parts. *)
Theorem null_keeps_nothing full ps r q n total : knd r = NullRoot ->
  report_progress ps r q = r /\ report_increment ps r q = r /\ report_finished full ps r = r /\ report_fractional ps r n total = r /\ request_abort ps r = r.
Proof.
  intros N. assert (P : forall ps q, report_progress ps r q = r).
  { intros qs. induction qs as [|(a, b) qs IH]; intros x; cbn [report_progress]; [unfold root_report; now rewrite N|apply IH]. }
  split; [apply P|]. split.
  - revert q. induction ps as [|(a, b) ps IH]; intros q; cbn [report_increment]; [unfold root_increment; now rewrite N|apply IH].
  - split; [destruct ps as [|(a, b) ps]; cbn [report_finished]; [unfold root_finished; now rewrite N|apply P]|].
    split; [apply P|]. unfold request_abort, root_abort. now rewrite N.
Qed.

(* A line printed for progress between zero and one has the length of the bar, and as many
   stars as the progress rounded down. *)
Theorem bar_printed r q t : knd r = Terminal t -> (0 <= bar t)%Z -> 0 <= q -> q <= 1 ->
  lines (root_report r q) = lines r \/
  exists s d, lines (root_report r q) = lines r ++ [(s, d)] /\ (s + d = bar t)%Z /\ (0 <= s)%Z /\ (0 <= d)%Z /\
    inject_Z s <= q * inject_Z (bar t) /\ q * inject_Z (bar t) < inject_Z (s + 1).
Proof.
  intros K B Q0 Q1. unfold root_report. rewrite K. unfold print_progress. cbn [knd lines done aborted].
  destruct (ltq _ _); [right|now left]. cbn [lines]. do 2 eexists. split; [reflexivity|].
  set (x := q * inject_Z (bar t)). assert (Bq : 0 <= inject_Z (bar t)) by (change 0 with (inject_Z 0); now rewrite <- Zle_Qle).
  assert (X0 : 0 <= x) by (apply Qmult_le_0_compat; assumption).
  assert (X1 : x <= inject_Z (bar t)) by (unfold x; setoid_replace (inject_Z (bar t)) with (1 * inject_Z (bar t)) at 2 by ring; apply Qmult_le_compat_r; assumption).
  assert (T : trunc x = Qfloor x) by (unfold trunc; destruct (ltq x 0) eqn:E; [apply plt in E; lra|reflexivity]). rewrite T.
  assert (F0 : (0 <= Qfloor x)%Z) by (change 0%Z with (Qfloor 0); now apply Qfloor_resp_le).
  assert (F1 : (Qfloor x <= bar t)%Z) by (rewrite <- (Qfloor_Z (bar t)); now apply Qfloor_resp_le).
  rewrite !Z.max_r by lia. repeat split; try lia; [apply Qfloor_le|apply Qlt_floor].
Qed.
(* Nothing is printed for changes within the step. *)
Theorem bar_quiet r q t : knd r = Terminal t -> qabs (q - last t) <= step t -> lines (root_report r q) = lines r.
Proof.
  intros K H. unfold root_report. rewrite K. unfold print_progress. cbn [knd done lines aborted]. apply pge in H. now rewrite H.
Qed.
(* The same progress is not printed twice. *)
Theorem bar_once r q t : knd r = Terminal t -> 0 <= step t -> lines (root_report (root_report r q) q) = lines (root_report r q).
Proof.
  intros K S. set (r' := root_report r q). assert (X : exists t', knd r' = Terminal t' /\ qabs (q - last t') <= step t').
  { unfold r', root_report. rewrite K. unfold print_progress. cbn [knd done lines aborted]. destruct (ltq _ _) eqn:E; cbn [knd].
    - eexists. split; [reflexivity|]. cbn [last step]. unfold qabs. destruct (ltq (q - q) 0) eqn:F; [apply plt in F; lra|lra].
    - apply pge in E. exists t. split; [reflexivity|exact E]. }
  destruct X as (t' & K' & B). now apply (bar_quiet r' q t').
Qed.
(* A callback that only keeps the progress shows one when it is finished. *)
Theorem finished_plain full r : knd r = Plain -> done (report_finished full [] r) == 1.
Proof. intros K. cbn [report_finished]. unfold root_finished. rewrite K. reflexivity. Qed.
(* The bar, the text, the brackets and three digits with their decimals fill eighty columns. *)
Theorem bar_fits text digits n : (0 <= text)%Z -> (0 <= digits)%Z -> bar_length text digits = Ok n ->
  (0 < n)%Z /\ (text + 1 + n + 2 + 3 + (if digits =? 0 then 0 else 1 + digits) + 1 = 80)%Z.
Proof.
  intros T D. unfold bar_length. destruct (Z.ltb_spec (text + 8 + digits) 80); [|discriminate]. intros E. assert (F : (n = 80 - text - 4 - 3 - (if 0 <? digits then digits + 1 else 0))%Z) by congruence. clear E. revert F.
  destruct (Z.ltb_spec 0 digits); destruct (Z.eqb_spec digits 0); intros F; lia.
Qed.

Example parts_met : let r := Root Plain false 0 [] in let ps := [(1 # 2, 1); (0, 1 # 2)] in
  keeps r /\ nonempty ps /\ proper ps /\ progress ps (report_progress ps r (1 # 2)) = Some (16 # 32).
Proof.
  cbv zeta. split; [discriminate|]. split; [intros a b [E|[E|[]]]; injection E as <- <-; lra|].
  split; [intros a b [E|[E|[]]]; injection E as <- <-; lra|vm_compute; reflexivity].
Qed.
Example bar_met : let r := Root (Terminal (Term (1 # 100) 10 (-(1)))) false 0 [] in lines (root_report r (1 # 4)) = [(2, 8)%Z].
Proof. vm_compute. reflexivity. Qed.

(** After report_finished the progress is one. False: the callback that prints on the terminal
    prints the full bar but keeps the progress it had. *)
Theorem finished_shows_one_refuted : ~ (forall full r, keeps r -> done (root_finished full r) == 1).
Proof. intros H. specialize (H 10%Z (Root (Terminal (Term 1 10 0)) false (1 # 2) []) ltac:(discriminate)). vm_compute in H. discriminate. Qed.
(** The bar printed never exceeds its length. False: progress beyond one, as increments can
    add up to, prints more stars. *)
Theorem bar_never_longer_refuted : ~ (forall r t l q, knd r = Terminal t -> (0 <= bar t)%Z -> lines (root_increment r q) = lines r ++ l -> forall s d, In (s, d) l -> (s + d <= bar t)%Z).
Proof.
  intros H. specialize (H (Root (Terminal (Term (1 # 100) 10 (-(1)))) false 1 []) (Term (1 # 100) 10 (-(1))) [(20, 0)%Z] 1 eq_refl ltac:(cbn; lia) eq_refl 20%Z 0%Z (or_introl eq_refl)).
  cbn in H. lia.
Qed.
(** The length of the bar is at most eighty. False for the deprecated constructor: a text that
    is too long is not refused, and the unsigned length wraps to billions of dots. *)
Theorem bar_length_old_refuted : ~ (forall text digits, (0 <= text)%Z -> (0 <= digits)%Z -> (bar_length_old text digits <= 80)%Z).
Proof. intros H. specialize (H 80%Z 0%Z ltac:(lia) ltac:(lia)). vm_compute in H. congruence. Qed.

Print Assumptions progress_reported. Print Assumptions increment_shares. Print Assumptions increment_shown. Print Assumptions increments_add.
Print Assumptions reported_range. Print Assumptions finished_part. Print Assumptions fractional_shown. Print Assumptions abort_seen. Print Assumptions abort_not_seen.
Print Assumptions null_keeps_nothing. Print Assumptions bar_printed. Print Assumptions bar_quiet. Print Assumptions bar_once. Print Assumptions finished_plain. Print Assumptions bar_fits.
Print Assumptions finished_shows_one_refuted. Print Assumptions bar_never_longer_refuted. Print Assumptions bar_length_old_refuted.
