From Coq Require Import List ZArith QArith Qround Qabs Bool Lia Lqa Sorting.Sorted Permutation.
From Verif Require Import Lib.Base Lib.Lists Interp.Model Interp.Spec Interp.Poly Interp.LProofs Interp.CProofs Interp.PProofs.
Import ListNotations.
Open Scope Q_scope.

(** ** Weights *)

Definition total (V : list (Q * Z)) : Q := fold_right (fun w s => fst w + s) 0 V.
Lemma total_left V : forall s, fold_left (fun s w => s + fst w) V s == s + total V.
Proof. induction V as [|w V IH]; intros s; cbn [fold_left total fold_right]; [ring|]. rewrite IH. unfold total. ring. Qed.
Lemma total_pos V : V <> [] -> (forall w, In w V -> 0 < fst w) -> 0 < total V.
Proof.
  intros NE P. destruct V as [|w V]; [contradiction|]. cbn [total fold_right]. assert (G : 0 <= total V).
  { assert (P' : forall w, In w V -> 0 < fst w) by (intros; apply P; now right). clear -P'. induction V as [|x V IH]; cbn [total fold_right]; [lra|].
    specialize (P' x (or_introl eq_refl)) as X. unfold total in IH. specialize (IH ltac:(intros; apply P'; now right)). lra. }
  specialize (P w (or_introl eq_refl)). unfold total in G. lra.
Qed.

Section Weights.
Variables (weight : Q -> Q) (sort : list (Q * Z) -> list (Q * Z)).
Hypothesis POS : forall x, 0 < weight x.
Hypothesis PERM : forall l, Permutation (sort l) l.
Hypothesis DESC : forall l, StronglySorted (fun a b => fst b <= fst a) (sort l).
Variables (t0 dt t : Q).
Hypothesis D : ~ dt == 0.
Definition raw (i : Z) : Q := weight ((t0 + dt * inject_Z i - t) / dt).

Lemma raw_list : forall l, fold_right (fun i (r : res (list (Q * Z))) =>
         r <- r ;; ratio <- divq (t0 + dt * inject_Z i - t) dt ;; Ok ((weight ratio, i) :: r)) (Ok []) l = Ok (map (fun i => (raw i, i)) l).
Proof. induction l as [|i l IH]; cbn [fold_right map]; [reflexivity|]. rewrite IH. cbn [bind]. rewrite divq_ok by auto. reflexivity. Qed.

Lemma norm_list s V : ~ s == 0 -> fold_right (fun w (r : res (list (Q * Z))) => r <- r ;; x <- divq (fst w) s ;; Ok ((x, snd w) :: r)) (Ok []) V =
  Ok (map (fun w => (fst w / s, snd w)) V).
Proof. intros N. induction V as [|w V IH]; cbn [fold_right map]; [reflexivity|]. rewrite IH. cbn [bind]. rewrite divq_ok by auto. reflexivity. Qed.

Lemma sorted_split k : forall l a b, StronglySorted (fun a b : Q * Z => fst b <= fst a) l -> In a (firstn k l) -> In b (skipn k l) -> fst b <= fst a.
Proof.
  induction k as [|k IH]; intros l a b S A B; cbn [firstn skipn] in *; [destruct A|]. destruct l as [|x l]; [destruct B|]. inversion S as [|? ? S1 S2]; subst.
  rewrite Forall_forall in S2. destruct A as [->|A]; [|eapply IH; eauto]. apply S2. rewrite <- (firstn_skipn k l). apply in_or_app. now right.
Qed.

Lemma weights_ok n num : (0 < n)%nat -> (0 < num)%Z -> exists kept ws,
  wts_and_indices weight sort t0 dt t (Z.of_nat n) num = Ok ws /\ length ws = Nat.min n (Z.to_nat num) /\
  kept = map snd ws /\ NoDup kept /\ (forall i, In i kept -> (0 <= i < Z.of_nat n)%Z) /\
  (forall w, In w ws -> 0 < fst w) /\ total ws == 1 /\
  (forall i k, In i kept -> (0 <= k < Z.of_nat n)%Z -> ~ In k kept -> raw k <= raw i) /\
  exists s, 0 < s /\ forall w, In w ws -> fst w * s == raw (snd w).
Proof.
  intros N NW. unfold wts_and_indices. rewrite raw_list. cbn [bind]. destruct (Z.ltb_spec (Z.min (Z.of_nat n) num) 0); [lia|]. rewrite Nat2Z.id.
  set (R := map (fun i => (raw i, i)) (zseq 0 n)). set (V := firstn (Z.to_nat (Z.min (Z.of_nat n) num)) (sort R)).
  assert (RI : forall w, In w (sort R) <-> fst w = raw (snd w) /\ (0 <= snd w < Z.of_nat n)%Z).
  { intros w. assert (X : In w (sort R) <-> In w R) by (split; apply Permutation_in; [apply PERM|apply Permutation_sym, PERM]). rewrite X. unfold R. rewrite in_map_iff. split.
    - intros (i & <- & I). apply in_zseq in I. cbn [fst snd]. split; auto.
    - intros (E & I). exists (snd w). split; [destruct w; cbn [fst snd] in *; congruence|]. apply in_zseq. auto. }
  assert (LS : length (sort R) = n) by (rewrite (Permutation_length (PERM R)); unfold R; rewrite map_length; apply zseq_len).
  assert (LV : length V = Nat.min n (Z.to_nat num)) by (unfold V; rewrite firstn_length, LS; lia).
  assert (VI : forall w, In w V -> In w (sort R)) by (intros w I; rewrite <- (firstn_skipn (Z.to_nat (Z.min (Z.of_nat n) num)) (sort R)); apply in_or_app; now left).
  assert (VP : forall w, In w V -> 0 < fst w) by (intros w I; apply VI, RI in I; destruct I as (-> & _); apply POS).
  assert (NE : V <> []) by (intros E; rewrite E in LV; cbn in LV; lia). pose proof (total_pos V NE VP) as TP.
  set (s := fold_left _ V 0). assert (SE : s == total V) by (unfold s; rewrite total_left; ring). rewrite norm_list by lra. clearbody s.
  exists (map snd (map (fun w => (fst w / s, snd w)) V)), (map (fun w => (fst w / s, snd w)) V). split; auto. split; [now rewrite map_length|]. split; auto.
  assert (KS : map snd (map (fun w => (fst w / s, snd w)) V) = map snd V) by (rewrite map_map; reflexivity). rewrite KS.
  split; [|split; [|split; [|split; [|split]]]].
  - assert (ND : NoDup (map snd (sort R))).
    { apply (Permutation_NoDup (l := map snd R)); [apply Permutation_map, Permutation_sym, PERM|]. unfold R. rewrite map_map. cbn [snd]. rewrite map_id. apply zseq_nodup. }
    rewrite <- (firstn_skipn (Z.to_nat (Z.min (Z.of_nat n) num)) (sort R)), map_app in ND. fold V in ND. clear -ND. induction (map snd V) as [|x l IH]; [constructor|].
    cbn [app] in ND. inversion ND as [|? ? A B]; subst. constructor; auto. intros I. apply A. apply in_or_app. auto.
  - intros i I. apply in_map_iff in I. destruct I as (w & <- & I). apply VI, RI in I. tauto.
  - intros w I. apply in_map_iff in I. destruct I as (v & <- & I). cbn [fst]. apply VP in I. apply Qlt_shift_div_l; lra.
  - assert (G : forall l, total (map (fun w : Q * Z => (fst w / s, snd w)) l) == total l / s).
    { induction l as [|w l IH]; cbn [map total fold_right fst]; [field; lra|]. unfold total in IH. rewrite IH. field. lra. }
    rewrite G, SE. field. lra.
  - intros i k I K O. apply in_map_iff in I. destruct I as (w & <- & I). assert (K1 : In (raw k, k) (sort R)) by (apply RI; auto).
    rewrite <- (firstn_skipn (Z.to_nat (Z.min (Z.of_nat n) num)) (sort R)) in K1. apply in_app_iff in K1. destruct K1 as [K1|K1].
    + exfalso. apply O. apply in_map_iff. exists (raw k, k). auto.
    + apply VI in I as I'. apply RI in I'. destruct I' as (<- & _). exact (sorted_split _ _ w (raw k, k) (DESC R) I K1).
  - exists s. split; [lra|]. intros w I. apply in_map_iff in I. destruct I as (v & <- & I). cbn [fst snd]. apply VI, RI in I. destruct I as (<- & _). field. lra.
Qed.

Lemma smooth_fold samples : forall ws acc, (forall w, In w ws -> (0 <= snd w < size samples)%Z) ->
  exists v, fold_left (fun (ans : res v3) w => ans <- ans ;; s <- get samples (snd w) ;; Ok (vadd ans (vscale (fst w) s))) ws (Ok acc) = Ok v /\
  forall (p : v3 -> Q) , (forall a k b, p (vadd a (vscale k b)) = p a + k * p b) -> p v == p acc + fold_right (fun w s => fst w * p (nth (Z.to_nat (snd w)) samples vzero) + s) 0 ws.
Proof.
  induction ws as [|w ws IH]; intros acc I; cbn [fold_left fold_right].
  - exists acc. split; auto. intros p P. ring.
  - cbn [bind]. rewrite (get_ok samples (snd w) vzero) by (apply I; now left). cbn [bind]. destruct (IH (vadd acc (vscale (fst w) (nth (Z.to_nat (snd w)) samples vzero)))) as (v & E & P); [intros; apply I; now right|].
    exists v. split; auto. intros p H. rewrite (P p H), H. ring.
Qed.

Lemma average_bounds (p : Z -> Q) lo hi ws : (forall w, In w ws -> 0 < fst w) -> (forall w, In w ws -> lo <= p (snd w) <= hi) ->
  lo * total ws <= fold_right (fun w s => fst w * p (snd w) + s) 0 ws <= hi * total ws.
Proof.
  intros P B. induction ws as [|w ws IH]; cbn [fold_right total]; [lra|]. specialize (IH ltac:(intros; apply P; now right) ltac:(intros; apply B; now right)).
  specialize (P w (or_introl eq_refl)). specialize (B w (or_introl eq_refl)). unfold total in IH. set (f := fst w) in *. set (g := p (snd w)) in *. clearbody f g. nra.
Qed.
End Weights.

(** ** Times of lines *)

Definition seg (offset : Q) (a b : Q * Q) : Q * (Q * Q) :=
  let slope := (snd b - snd a) / (fst b - fst a) in (fst a, (slope, offset + snd a - slope * fst a)).
Fixpoint segs (offset : Q) (tlc : list (Q * Q)) : list (Q * (Q * Q)) :=
  match tlc with a :: ((b :: _) as rest) => seg offset a b :: segs offset rest | _ => [] end.

Definition lines_ascending (tlc : list (Q * Q)) : Prop := ascending (map fst tlc).

Lemma put_last key v m : (forall k w, In (k, w) m -> k < key) -> put key v m = m ++ [(key, v)].
Proof.
  induction m as [|[k w] m IH]; intros L; cbn [put app]; [reflexivity|]. pose proof (L k w (or_introl eq_refl)). destruct (ltqP key k); [lra|]. destruct (ltqP k key); [|lra].
  rewrite IH; auto. intros; apply (L k0 w0). now right.
Qed.

Lemma table_ok offset : forall tlc m, lines_ascending tlc -> (forall k w a, In (k, w) m -> In a tlc -> k < fst a) -> tlc_table offset tlc m = Ok (m ++ segs offset tlc).
Proof.
  induction tlc as [|[l0 s0] tlc IH]; intros m A B; cbn [tlc_table segs]; [now rewrite app_nil_r|]. destruct tlc as [|[l1 s1] tlc]; [now rewrite app_nil_r|].
  unfold lines_ascending, ascending in A. cbn [map fst] in A. inversion A as [|? ? A1 A2]; subst. rewrite Forall_forall in A2. assert (L : l0 < l1) by (apply A2; now left).
  rewrite divq_ok by lra. cbn [bind]. rewrite put_last by (intros k w I; apply (B k w (l0, s0) I); now left). rewrite IH; auto.
  - rewrite <- app_assoc. reflexivity.
  - intros k w a I J. apply in_app_iff in I. destruct I as [I|[I|[]]]; [apply (B k w a I); now right|]. injection I as <- _. apply A2. exact (in_map fst ((l1, s1) :: tlc) a J).
Qed.

(** The value of a segment. *)
Definition line_value (offset : Q) (a b : Q * Q) (line : Q) : Q := offset + snd a + (line - fst a) * ((snd b - snd a) / (fst b - fst a)).
Lemma seg_value offset a b line : ~ fst b == fst a -> line * fst (snd (seg offset a b)) + snd (snd (seg offset a b)) == line_value offset a b line.
Proof. intros N. unfold seg, line_value. cbn [fst snd]. field. lra. Qed.

Lemma find_seg offset line : forall pre prev a b post,
  lines_ascending (pre ++ a :: b :: post) ->
  (pre <> [] \/ prev <> None -> fst a <= line) -> (post <> [] -> line <= fst b) ->
  (forall p, prev = Some p -> match pre with [] => line == fst a -> line * fst p + snd p == line_value offset a b line | q :: _ => True end) ->
  exists p, before_lower_bound line prev (segs offset (pre ++ a :: b :: post)) = Some p /\ line * fst p + snd p == line_value offset a b line.
Proof.
  induction pre as [|q pre IH]; intros prev a b post A LO HI PV.
  - cbn [app segs]. unfold lines_ascending, ascending in A. cbn [app map] in A. inversion A as [|? ? A1 A2]; subst. rewrite Forall_forall in A2. assert (L : fst a < fst b) by (apply A2; now left).
    unfold seg at 1. cbn [before_lower_bound]. fold (seg offset a b). destruct (ltqP (fst a) line) as [X|X].
    + destruct post as [|c post].
      * cbn [segs before_lower_bound]. eexists. split; [reflexivity|]. exact (seg_value offset a b line ltac:(lra)).
      * cbn [segs]. unfold seg at 1. cbn [before_lower_bound]. specialize (HI ltac:(discriminate)). destruct (ltqP (fst b) line); [lra|]. eexists. split; [reflexivity|]. exact (seg_value offset a b line ltac:(lra)).
    + destruct prev as [p|].
      * exists p. split; auto. apply (PV p eq_refl). assert (LO' : fst a <= line) by (apply LO; right; discriminate). clear - LO' X. lra.
      * eexists. split; [reflexivity|]. exact (seg_value offset a b line ltac:(lra)).
  - assert (LO' : fst a <= line) by (apply LO; left; discriminate). clear LO.
    assert (QA : forall x, In x (pre ++ a :: b :: post) -> fst q < fst x).
    { unfold lines_ascending, ascending in A. cbn [app map] in A. inversion A as [|? ? A1 A2]; subst. rewrite Forall_forall in A2. intros x I. apply A2. apply in_map_iff. eauto. }
    assert (A' : lines_ascending (pre ++ a :: b :: post)) by (unfold lines_ascending, ascending in *; cbn [app map] in A; now inversion A).
    assert (QL : fst q < line). { specialize (QA a ltac:(apply in_or_app; right; now left)). lra. }
    assert (E : exists p, segs offset (q :: pre ++ a :: b :: post) = (fst q, p) :: segs offset (pre ++ a :: b :: post) /\ (pre = [] -> p = snd (seg offset q a))).
    { destruct pre as [|r pre]; cbn [app segs]; eexists; (split; [reflexivity|]); auto; discriminate. }
    destruct E as (p & E & EP). cbn [app]. rewrite E. cbn [before_lower_bound]. destruct (ltqP (fst q) line); [|lra].
    apply IH; auto. intros p' X. injection X as <-. destruct pre as [|r pre]; auto. intros LE. rewrite EP by auto.
    assert (L1 : fst q < fst a) by (apply QA; now left). rewrite (seg_value offset q a line) by lra. unfold line_value. rewrite LE.
    assert (L2 : fst a < fst b). { unfold lines_ascending, ascending in A'. cbn [app map] in A'. inversion A' as [|? ? _ A2]; subst. rewrite Forall_forall in A2. apply A2. now left. }
    field. lra.
Qed.

(** ** A table of directions *)

Section Grid.
Variables (D : Type) (slerp extrapolate : Q -> D -> D -> D).
Variables (directions : list (list D)) (n m : nat) (row0 drow col0 dcol : Q).
Hypothesis N : length directions = S n.
Hypothesis M : forall r, In r directions -> length r = S m.
Hypothesis DR : 0 < drow.
Hypothesis DC : 0 < dcol.

Lemma cell_ok i j : (i <= n)%nat -> (j <= m)%nat -> exists d, cell directions (Z.of_nat i) (Z.of_nat j) = Ok d.
Proof.
  intros I J. unfold cell. destruct (nth_error directions i) as [r|] eqn:E; [|apply nth_error_None in E; lia]. rewrite (get_nth _ _ _ E). cbn [bind].
  apply nth_error_In in E. apply M in E. destruct (nth_error r j) as [d|] eqn:F; [|apply nth_error_None in F; lia]. exists d. apply (get_nth _ _ _ F).
Qed.

Lemma floor_at x0 d x k : 0 < d -> time_of x0 d 0 <= x -> x <= time_of x0 d k -> exists i j, Qfloor ((x - x0) / d) = Z.of_nat i /\ Qceiling ((x - x0) / d) = Z.of_nat j /\
  (i <= j <= k)%nat /\ (j <= S i)%nat /\ time_of x0 d i <= x /\ x < time_of x0 d (S i) /\ x <= time_of x0 d j /\ (j = i -> x == time_of x0 d i).
Proof.
  intros P L H. set (u := (x - x0) / d). assert (E : x == x0 + d * u) by (unfold u; field; lra). rewrite time_zero in L. unfold time_of in H.
  assert (U : 0 <= u) by nra. assert (V : u <= inject_Z (Z.of_nat k)) by (set (q := inject_Z (Z.of_nat k)) in *; clearbody q u; nra).
  destruct (floor_spec u) as (A & B), (ceil_spec u) as (C & F). assert (Z0 : (0 <= Qfloor u)%Z).
  { assert (X : (-1 < Qfloor u)%Z); [|lia]. apply inj_lt'. change (inject_Z (-1)) with (-1 # 1). lra. }
  assert (ZK : (Qceiling u <= Z.of_nat k)%Z). { assert (X : (Qceiling u < Z.of_nat k + 1)%Z); [|lia]. apply inj_lt'. rewrite inj1. lra. }
  assert (FC : (Qfloor u <= Qceiling u)%Z) by (apply inj_le'; lra). assert (CF : (Qceiling u < Qfloor u + 2)%Z) by (apply inj_lt'; rewrite inject_Z_plus; change (inject_Z 2) with 2; lra).
  exists (Z.to_nat (Qfloor u)), (Z.to_nat (Qceiling u)). rewrite !Z2Nat.id by lia. split; auto. split; auto. split; [lia|]. split; [lia|].
  unfold time_of. rewrite !Z2Nat.id by lia. set (f := inject_Z (Qfloor u)) in *. set (c := inject_Z (Qceiling u)) in *.
  split; [clearbody f c u; nra|]. split; [replace (Z.of_nat (S (Z.to_nat (Qfloor u)))) with (Qfloor u + 1)%Z by lia; rewrite inj1; fold f; clearbody f c u; nra|]. split; [clearbody f c u; nra|]. intros Q. assert (FCE : Qceiling u = Qfloor u) by lia. assert (CE : c == f) by (unfold c, f; rewrite FCE; reflexivity). clearbody f c u. rewrite E. assert (u == f) by lra. nra.
Qed.

Lemma grid_in col row : time_of row0 drow 0 <= row -> row <= time_of row0 drow n -> time_of col0 dcol 0 <= col -> col <= time_of col0 dcol m ->
  exists i i' j j' u v ll hl lh hh, (i <= i' <= n)%nat /\ (i' <= S i)%nat /\ (j <= j' <= m)%nat /\ (j' <= S j)%nat /\
    time_of row0 drow i <= row /\ row < time_of row0 drow (S i) /\ row <= time_of row0 drow i' /\ (i' = i -> row == time_of row0 drow i) /\
    time_of col0 dcol j <= col /\ col < time_of col0 dcol (S j) /\ col <= time_of col0 dcol j' /\ (j' = j -> col == time_of col0 dcol j) /\
    u == (row - time_of row0 drow i) / drow /\ v == (col - time_of col0 dcol j) / dcol /\
    cell directions (Z.of_nat i) (Z.of_nat j) = Ok ll /\ cell directions (Z.of_nat i') (Z.of_nat j) = Ok hl /\
    cell directions (Z.of_nat i) (Z.of_nat j') = Ok lh /\ cell directions (Z.of_nat i') (Z.of_nat j') = Ok hh /\
    grid slerp extrapolate directions row0 drow col0 dcol col row = Ok (slerp v (slerp u ll hl) (slerp u lh hh)).
Proof.
  intros R0 R1 C0 C1. destruct (floor_at row0 drow row n DR R0 R1) as (i & i' & FI & CI & LI & LI' & TI & TI'' & TI' & EI).
  destruct (floor_at col0 dcol col m DC C0 C1) as (j & j' & FJ & CJ & LJ & LJ' & TJ & TJ'' & TJ' & EJ). rewrite time_zero in R0, C0.
  destruct (cell_ok i j) as (ll & Ell); [lia|lia|]. destruct (cell_ok i' j) as (hl & Ehl); [lia|lia|]. destruct (cell_ok i j') as (lh & Elh); [lia|lia|]. destruct (cell_ok i' j') as (hh & Ehh); [lia|lia|].
  exists i, i', j, j', ((row - time_of row0 drow i) / drow), ((col - time_of col0 dcol j) / dcol), ll, hl, lh, hh.
  do 14 (split; [first [assumption|lia|reflexivity]|]). do 4 (split; [assumption|]).
  unfold grid. destruct directions as [|front rest] eqn:ED; [discriminate|]. assert (LF := M front (or_introl eq_refl)). destruct front as [|d0 front0] eqn:EF; [discriminate|]. rewrite <- EF in *. rewrite <- ED in *.
  unfold size. rewrite N, LF. replace (Z.of_nat (S n) - 1)%Z with (Z.of_nat n) by lia. replace (Z.of_nat (S m) - 1)%Z with (Z.of_nat m) by lia. fold (time_of row0 drow n). fold (time_of col0 dcol m).
  destruct (leqP row0 row); [|lra]. destruct (leqP row (time_of row0 drow n)); [|lra]. cbn [andb negb]. rewrite divq_ok by lra. cbn [bind]. rewrite FI, CI.
  destruct (Z.leb_spec 0 (Z.of_nat i)); [|lia]. destruct (Z.ltb_spec (Z.of_nat i') (Z.of_nat (S n))); [|lia]. cbn [andb negb]. rewrite !divq_ok by lra. cbn [bind].
  destruct (ltqP col col0); [lra|]. destruct (ltqP (time_of col0 dcol m) col); [lra|]. rewrite FJ, CJ. rewrite divq_ok by lra. cbn [bind].
  rewrite Ell, Ehl, Elh, Ehh. cbn [bind]. destruct (leqP col0 col); [|lra]. destruct (leqP col (time_of col0 dcol m)); [|lra]. cbn [andb]. reflexivity.
Qed.
End Grid.
