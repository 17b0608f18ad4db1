From Coq Require Import List ZArith QArith Bool Lia Permutation.
From Verif Require Import Lib.Base Lib.Lists Cut.Model Cut.Spec.
Import ListNotations.
Open Scope nat_scope.

Lemma nodup_app {A} (l m : list A) : NoDup l -> NoDup m -> (forall a, In a l -> In a m -> False) -> NoDup (l ++ m).
Proof.
  induction l as [|x l IH]; intros NL NM D; cbn [app]; auto. inversion NL; subst. constructor.
  - rewrite in_app_iff. intros [I|I]; [contradiction|]. apply (D x); auto. now left.
  - apply IH; auto. intros a I1 I2. apply (D a); auto. now right.
Qed.

Lemma sumz_cons {X} (f : X -> Z) x l : sumz f (x :: l) = (f x + sumz f l)%Z.
Proof. reflexivity. Qed.
Lemma sumz_app {X} (f : X -> Z) l m : sumz f (l ++ m) = (sumz f l + sumz f m)%Z.
Proof. induction l as [|x l IH]; cbn [app]; [reflexivity|]. rewrite !sumz_cons, IH. lia. Qed.
Lemma sumz_perm {X} (f : X -> Z) l m : Permutation l m -> sumz f l = sumz f m.
Proof. induction 1; rewrite ?sumz_cons in *; lia. Qed.
Lemma sumz_ext {X} (f g : X -> Z) l : (forall x, In x l -> f x = g x) -> sumz f l = sumz g l.
Proof. induction l as [|x l IH]; intros E; [reflexivity|]. rewrite !sumz_cons, IH by (intros; apply E; now right). f_equal. apply E. now left. Qed.
Lemma sumz_map {X Y} (f : Y -> Z) (h : X -> Y) l : sumz f (map h l) = sumz (fun x => f (h x)) l.
Proof. induction l as [|x l IH]; [reflexivity|]. cbn [map]. now rewrite !sumz_cons, IH. Qed.
Lemma sumz_add {X} (f g : X -> Z) l : sumz (fun x => (f x + g x)%Z) l = (sumz f l + sumz g l)%Z.
Proof. induction l as [|x l IH]; [reflexivity|]. rewrite !sumz_cons, IH. lia. Qed.
Lemma sumz_zero {X} (f : X -> Z) l : (forall x, In x l -> f x = 0%Z) -> sumz f l = 0%Z.
Proof. induction l as [|x l IH]; intros E; [reflexivity|]. rewrite sumz_cons, IH by (intros; apply E; now right). rewrite E by now left. reflexivity. Qed.

Section Cycles.
Variables nx ny H : Q.
Variable cut : list pt.
Variable marks : list mark.
Variable f : nat -> nat.
Notation N := (length cut).
Hypothesis NEXT : forall i, i < N -> next_point nx ny H cut marks i = Ok (Z.of_nat (f i)).
Hypothesis RANGE : forall i, i < N -> f i < N.
Hypothesis INJ : forall i j, i < N -> j < N -> f i = f j -> i = j.

(** The steps of [c] in turn, then [z]. *)
Fixpoint steps (c : list nat) (z : nat) : Prop :=
  match c with [] => True | i :: c' => f i = match c' with [] => z | j :: _ => j end /\ steps c' z end.
Definition cycle (c : list nat) : Prop := c <> [] /\ steps c (hd 0 c).

Lemma steps_snoc c i z : steps c i -> f i = z -> steps (c ++ [i]) z.
Proof.
  induction c as [|j c IH]; intros S E; cbn [app steps]; auto. destruct S as (A & B). split; auto.
  destruct c; cbn [app] in *; auto.
Qed.

(** Every element but the first is the next of another one before it. *)
Lemma steps_pred c z : steps c z -> forall k j, nth_error c (S k) = Some j -> exists i, nth_error c k = Some i /\ f i = j.
Proof.
  induction c as [|i c IH]; intros S k j E; [destruct k; discriminate|]. destruct S as (A & B). cbn [nth_error] in E.
  destruct k as [|k].
  - destruct c as [|j' c]; [discriminate|]. cbn [nth_error] in E. injection E as ->. exists i. auto.
  - apply (IH B) in E. exact E.
Qed.
Lemma steps_last c z : c <> [] -> steps c z -> exists i, nth_error c (length c - 1) = Some i /\ f i = z.
Proof.
  induction c as [|i c IH]; intros NE S; [contradiction|]. destruct S as (A & B). destruct c as [|j c].
  - exists i. auto.
  - destruct (IH ltac:(discriminate) B) as (i' & E & F). exists i'. split; auto. cbn [length] in *.
    replace (S (S (length c)) - 1) with (S (length c)) by lia. replace (S (length c) - 1) with (length c) in E by lia. exact E.
Qed.

(** The points visited. *)
Definition vis (visited : list bool) (i : nat) : Prop := nth_error visited i = Some true.
Definition back_closed (visited : list bool) : Prop := forall i, i < N -> vis visited (f i) -> vis visited i.

Definition unvisited (visited : list bool) : nat := length (filter negb visited).
Lemma unvisited_upd visited i : nth_error visited i = Some false -> S (unvisited (upd visited i true)) = unvisited visited.
Proof.
  revert i. induction visited as [|b v IH]; intros [|i] E; try discriminate; cbn [nth_error] in E.
  - injection E as ->. unfold unvisited. cbn [upd filter negb length]. reflexivity.
  - specialize (IH _ E). unfold unvisited in *. cbn [upd filter]. destruct (negb b); cbn [length]; lia.
Qed.
Lemma unvisited_le v : unvisited v <= length v.
Proof. unfold unvisited. induction v as [|b v IH]; cbn [filter length]; auto. destruct (negb b); cbn [length]; lia. Qed.

Lemma vis_upd v i j : i < length v -> (vis (upd v i true) j <-> j = i \/ vis v j).
Proof.
  intros L. unfold vis. destruct (Nat.eq_dec j i) as [->|NE].
  - rewrite upd_eq by auto. split; auto.
  - rewrite upd_neq by auto. split; auto. intros [?|?]; [contradiction|auto].
Qed.

Lemma component_ok fuel : forall visited0 visited c i, length visited0 = N -> back_closed visited0 ->
  length visited = N -> (forall j, vis visited j <-> vis visited0 j \/ In j c) -> NoDup c -> (forall j, In j c -> j < N /\ ~ vis visited0 j) ->
  steps c i -> i < N -> (c = [] -> ~ vis visited0 i) -> unvisited visited < fuel ->
  exists visited' c', component nx ny H fuel cut marks visited (Z.of_nat i) = Ok (visited', map (fun j => nth j cut (0, 0)%Q) c') /\
    length visited' = N /\ (forall j, vis visited' j <-> vis visited0 j \/ In j (c ++ c')) /\ NoDup (c ++ c') /\
    (forall j, In j (c ++ c') -> j < N /\ ~ vis visited0 j) /\ cycle (c ++ c') /\ back_closed visited'.
Proof.
  induction fuel as [|fuel IH]; intros visited0 visited c i L0 BC LV VI ND IN ST LI NE0 FU; [lia|]. cbn [component].
  destruct (Z.ltb_spec (Z.of_nat i) 0); [lia|]. rewrite Nat2Z.id.
  destruct (nth_error visited i) as [[|]|] eqn:EV; [| |apply nth_error_None in EV; lia].
  - exists visited, []. rewrite app_nil_r. split; auto. split; auto. split; auto. split; auto. split; auto.
    assert (CN : c <> []). { intros ->. apply VI in EV. destruct EV as [EV|[]]. now apply NE0. }
    destruct (steps_last c i CN ST) as (l & EL & FL). assert (IL : In l c) by (eapply nth_error_In; eauto).
    assert (CY : cycle c).
    { split; auto. apply VI in EV. destruct EV as [EV|EV].
      - exfalso. destruct (IN _ IL) as (LL & NV). apply NV. apply BC; auto. now rewrite FL.
      - apply In_nth_error in EV. destruct EV as (k & EK). destruct k as [|k].
        + destruct c as [|j c]; [discriminate|]. cbn [nth_error] in EK. injection EK as ->. exact ST.
        + exfalso. destruct (steps_pred c i ST _ _ EK) as (i' & EI & FI). assert (In i' c) by (eapply nth_error_In; eauto).
          assert (i' = l) by (apply INJ; [apply IN; auto|apply IN; auto|congruence]). subst i'.
          assert (k = length c - 1). { apply (proj1 (NoDup_nth_error c) ND); [eapply nth_error_lt; eauto|congruence]. }
          subst k. apply nth_error_lt in EK. lia. }
    split; auto. intros j LJ VJ. apply VI in VJ. apply VI. destruct VJ as [VJ|VJ]; [left; apply BC; auto|right].
    destruct CY as (_ & CY). apply In_nth_error in VJ. destruct VJ as (k & EK). destruct k as [|k].
    + destruct (steps_last c _ CN CY) as (l' & EL' & FL'). assert (j = l'); [|subst; eapply nth_error_In; eauto].
      apply INJ; [auto|apply IN; eapply nth_error_In; eauto|]. rewrite FL'. destruct c; [discriminate|]. cbn in *. congruence.
    + destruct (steps_pred c _ CY _ _ EK) as (i' & EI & FI). assert (j = i'); [|subst; eapply nth_error_In; eauto].
      apply INJ; [auto|apply IN; eapply nth_error_In; eauto|congruence].
  - destruct (nth_error cut i) as [p|] eqn:EP; [|apply nth_error_None in EP; lia]. rewrite NEXT by auto. cbn [bind].
    assert (NV : ~ vis visited i) by (unfold vis; congruence).
    destruct (IH visited0 (upd visited i true) (c ++ [i]) (f i) L0 BC) as (v' & c' & -> & R).
    + now rewrite upd_length.
    + intros j. rewrite vis_upd by lia. rewrite VI, in_app_iff. cbn [In]. intuition auto.
    + apply (Permutation_NoDup (l := i :: c)); [apply Permutation_cons_append|]. constructor; auto. intros I. apply NV, VI; auto.
    + intros j I. apply in_app_iff in I. destruct I as [I|[<-|[]]]; auto. split; auto. intros V. apply NV, VI; auto.
    + apply steps_snoc; auto.
    + auto.
    + intros E. destruct c; discriminate.
    + apply unvisited_upd in EV. lia.
    + cbn [bind]. exists v', (i :: c'). cbn [map]. pose proof (nth_error_nth _ _ (0, 0)%Q EP) as EN. cbv beta in *. rewrite <- app_assoc in R. cbn [app] in R.
      split; auto. now rewrite <- EN.
Qed.

Lemma first_unvisited_spec v : forall i, match first_unvisited i v with
  | None => forall j, j < length v -> vis v j
  | Some k => i <= k < i + length v /\ nth_error v (k - i) = Some false
  end.
Proof.
  induction v as [|[|] v IH]; intros i; cbn [first_unvisited].
  - intros j L. cbn in L. lia.
  - specialize (IH (S i)). destruct (first_unvisited (S i) v) as [k|].
    + destruct IH as (B & E). cbn [length]. split; [lia|]. replace (k - i) with (S (k - S i)) by lia. exact E.
    + intros [|j] L; [reflexivity|]. apply IH. cbn [length] in L. lia.
  - cbn [length]. split; [lia|]. now rewrite Nat.sub_diag.
Qed.

Definition point (j : nat) : pt := nth j cut (0, 0)%Q.

Lemma components_ok fuel : forall visited, length visited = N -> back_closed visited -> unvisited visited < fuel ->
  exists cs, components nx ny H fuel cut marks visited = Ok (concat (map (map point) cs), map (@length nat) cs) /\
    NoDup (concat cs) /\ (forall j, In j (concat cs) <-> j < N /\ ~ vis visited j) /\ forall c, In c cs -> cycle c.
Proof.
  induction fuel as [|fuel IH]; intros visited LV BC FU; [lia|]. cbn [components].
  pose proof (first_unvisited_spec visited 0) as FS. destruct (first_unvisited 0 visited) as [v|].
  - destruct FS as (B & EV). rewrite Nat.sub_0_r in EV. cbn [Nat.add] in B.
    assert (NV : ~ vis visited v) by (unfold vis; congruence).
    destruct (component_ok (S N) visited visited [] v LV BC LV) as (v' & c & -> & LV' & VI & ND & IN & CY & BC').
    + intros j. cbn [In]. tauto.
    + constructor.
    + intros j [].
    + exact I.
    + lia.
    + auto.
    + pose proof (unvisited_le visited). lia.
    + cbn [app bind] in *. assert (UV : unvisited v' < unvisited visited).
      { destruct CY as (NE & _). destruct c as [|c0 c]; [contradiction|].
        assert (LE : forall a b, length a = length b -> (forall j, vis a j -> vis b j) -> unvisited b <= unvisited a).
        { clear. unfold unvisited, vis. induction a as [|x a IHa]; intros [|y b] L S; try discriminate; auto.
          injection L as L. cbn [filter]. assert (unv : length (filter negb b) <= length (filter negb a)) by (apply IHa; auto; intros j; apply (S (Datatypes.S j))).
          specialize (S 0). cbn [nth_error] in S. destruct x, y; cbn [negb length]; try lia. specialize (S eq_refl). discriminate. }
        destruct (IN c0 ltac:(now left)) as (LC & NC).
        assert (EF : nth_error visited c0 = Some false).
        { destruct (nth_error visited c0) as [[|]|] eqn:E; auto; [contradiction|]. apply nth_error_None in E. lia. }
        rewrite <- (unvisited_upd _ _ EF). apply Nat.lt_succ_r. apply LE; [now rewrite upd_length; lia|].
        intros j V. apply vis_upd in V; [|lia]. apply VI. destruct V as [->|V]; [right; now left|auto]. }
      destruct (IH v' LV' BC') as (cs & -> & NDs & INs & CYs); [lia|]. cbn [bind]. exists (c :: cs). cbn [map concat]. rewrite map_length.
      split; auto. split; [|split].
      * apply nodup_app; auto. intros j I1 I2. apply INs in I2. destruct I2 as (_ & I2). apply I2, VI. auto.
      * intros j. rewrite in_app_iff, INs, VI. split.
        -- intros [I|(L & I)]; auto.
        -- intros (L & I). destruct (in_dec Nat.eq_dec j c); auto. right. split; auto. tauto.
      * intros c' [<-|I]; auto.
  - exists []. cbn [map concat]. split; auto. split; [constructor|]. split; [|intros c []].
    intros j. split; [intros []|]. intros (L & NV). apply NV, FS. lia.
Qed.

Lemma all_components : exists cs, components nx ny H (S N) cut marks (repeat false N) = Ok (concat (map (map point) cs), map (@length nat) cs) /\
  Permutation (concat cs) (seq 0 N) /\ forall c, In c cs -> cycle c.
Proof.
  assert (NV : forall j, ~ vis (repeat false N) j).
  { intros j V. unfold vis in V. apply nth_error_In, repeat_spec in V. discriminate. }
  destruct (components_ok (S N) (repeat false N)) as (cs & E & ND & IN & CY).
  - apply repeat_length.
  - intros i _ V. now apply NV in V.
  - pose proof (unvisited_le (repeat false N)). rewrite repeat_length in *. lia.
  - exists cs. split; auto. split; auto. apply NoDup_Permutation; auto; [apply seq_NoDup|]. intros j. rewrite IN, in_seq.
    specialize (NV j). intuition lia.
Qed.

(** Sums over the edges of the polygons are sums over all steps. *)
Lemma cycle_sum (g : pt -> pt -> Z) c : cycle c ->
  sumz (fun e => g (fst e) (snd e)) (edges (map point c)) = sumz (fun i => g (point i) (point (f i))) c.
Proof.
  intros (NE & ST). destruct c as [|i0 c]; [contradiction|]. cbn [hd] in ST. unfold edges. cbn [map].
  assert (G : forall c i, steps (i :: c) i0 ->
    sumz (fun e => g (fst e) (snd e)) (combine (map point (i :: c)) (map point c ++ [point i0])) = sumz (fun i => g (point i) (point (f i))) (i :: c)).
  { clear. induction c as [|j c IH]; intros i (A & B); cbn [map app combine sumz fold_right fst snd].
    - now rewrite A.
    - rewrite A. f_equal. apply (IH j B). }
  apply (G c i0 ST).
Qed.
Lemma cycles_sum (g : pt -> pt -> Z) cs : (forall c, In c cs -> cycle c) ->
  sumz (fun poly => sumz (fun e => g (fst e) (snd e)) (edges poly)) (map (map point) cs) = sumz (fun i => g (point i) (point (f i))) (concat cs).
Proof.
  induction cs as [|c cs IH]; intros CY; [reflexivity|]. cbn [map concat].
  rewrite sumz_app, sumz_cons. rewrite cycle_sum by (apply CY; now left). f_equal. apply IH. intros; apply CY; now right.
Qed.
End Cycles.
