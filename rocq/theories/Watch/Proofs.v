(** Stopwatches: proofs. *)
From Verif Require Import Lib.Base Lib.Str Watch.Model Watch.Spec.
From Coq Require Import ZArith List Lia Bool.
Import ListNotations.
Local Open Scope Z_scope.

Lemma depth_nil : depth [] = 0.
Proof. reflexivity. Qed.
Lemma depth_cons e h : depth (e :: h) = delta e + depth h.
Proof. reflexivity. Qed.

Lemma depth_snoc h e : depth (h ++ [e]) = depth h + delta e.
Proof. unfold depth. rewrite map_app, zsum_app. cbn. lia. Qed.

Lemma nested_snoc h e : nested (h ++ [e]) -> nested h /\ 0 <= depth h + delta e < 4294967296.
Proof.
  intros N. split.
  - intros h1 h2 ->. apply (N h1 (h2 ++ [e])). symmetry. apply app_assoc.
  - rewrite <- depth_snoc. apply (N _ []). symmetry. apply app_nil_r.
Qed.

Definition last_time (h : list event) : Z := match rev h with [] => 0 | e :: _ => time e end.

Lemma last_time_snoc h e : last_time (h ++ [e]) = time e.
Proof. unfold last_time. rewrite rev_app_distr. reflexivity. Qed.

Lemma busy_cons d e h : busy d (e :: h) = (match h with [] => 0 | e' :: _ => if 0 <? d + delta e then time e' - time e else 0 end) + busy (d + delta e) h.
Proof. destruct h; reflexivity. Qed.

Lemma busy_snoc h e : forall d, h <> [] -> busy d (h ++ [e]) = busy d h + (if 0 <? d + depth h then time e - last_time h else 0).
Proof.
  induction h as [|e0 h IH]; intros d N; [congruence|]. cbn [app]. rewrite !busy_cons.
  destruct h as [|e1 h].
  - cbn [app busy]. replace (depth [e0]) with (delta e0) by (rewrite depth_cons, depth_nil; lia). unfold last_time. cbn [rev app]. lia.
  - rewrite IH by discriminate. cbn [app]. replace (depth (e0 :: e1 :: h)) with (delta e0 + depth (e1 :: h)) by (rewrite (depth_cons e0); lia).
    replace (last_time (e0 :: e1 :: h)) with (last_time (e1 :: h)).
    + replace (d + delta e0 + depth (e1 :: h)) with (d + (delta e0 + depth (e1 :: h))) by lia. lia.
    + destruct (@exists_last _ (e1 :: h)) as (l & x & E); [discriminate|]. rewrite E. rewrite app_comm_cons, !last_time_snoc. reflexivity.
Qed.

Lemma finishes_snoc h e : forall d, finishes d (h ++ [e]) = finishes d h + (if d + depth h + delta e =? 0 then 1 else 0).
Proof.
  induction h as [|e0 h IH]; intros d; cbn [app finishes].
  - rewrite depth_nil. replace (d + 0 + delta e) with (d + delta e) by lia. lia.
  - rewrite IH. replace (depth (e0 :: h)) with (delta e0 + depth h) by (rewrite (depth_cons e0); lia).
    replace (d + (delta e0 + depth h) + delta e) with (d + delta e0 + depth h + delta e) by lia. lia.
Qed.

Lemma u64_add a b : u64 (a + u64 b) = u64 (a + b).
Proof. unfold u64. rewrite Zplus_mod_idemp_r. reflexivity. Qed.
Lemma u64_add_l a b : u64 (u64 a + b) = u64 (a + b).
Proof. unfold u64. rewrite Zplus_mod_idemp_l. reflexivity. Qed.

Lemma after_snoc h e : after (h ++ [e]) = apply_event (after h) e.
Proof. unfold after. rewrite fold_left_app. reflexivity. Qed.

Lemma after_spec h : nested h ->
  startdepth (after h) = depth h /\ numstops (after h) = u32 (finishes 0 h) /\
  total_elapsed (after h) = u64 (busy 0 h - (if 0 <? depth h then last_time h - last_start (after h) else 0)).
Proof.
  induction h as [|e h IH] using rev_ind; intros N; [repeat split|].
  apply nested_snoc in N as (N & D). specialize (IH N) as (I1 & I2 & I3).
  pose proof (proj1 (N h [] (eq_sym (app_nil_r h)))) as D0. pose proof (proj2 (N h [] (eq_sym (app_nil_r h)))) as D1.
  rewrite after_snoc, depth_snoc, finishes_snoc, last_time_snoc.
  assert (B : busy 0 (h ++ [e]) = busy 0 h + (if 0 <? depth h then time e - last_time h else 0)).
  { destruct h as [|e0 h]; [reflexivity|]. rewrite busy_snoc by discriminate. reflexivity. }
  rewrite B. clear B. replace (0 + depth h + delta e) with (depth h + delta e) by lia.
  destruct e as [t|t]; cbn [apply_event start stop delta time] in *.
  - unfold start. cbn [startdepth numstops total_elapsed last_start]. rewrite I1, I2. split; [|split].
    + unfold u32. apply Z.mod_small. lia.
    + destruct (Z.eqb_spec (depth h + 1) 0); [lia|]. f_equal. lia.
    + rewrite I3. destruct (Z.ltb_spec 0 (depth h + 1)); [|lia]. destruct (Z.eqb_spec (depth h) 0) as [Z0|Z0].
      * rewrite Z0. change (0 <? 0) with false. cbn [andb]. f_equal. lia.
      * destruct (Z.ltb_spec 0 (depth h)); [|lia]. f_equal. lia.
  - unfold stop. rewrite I1. replace (u32 (depth h - 1)) with (depth h - 1) by (symmetry; unfold u32; apply Z.mod_small; lia).
    replace (depth h + -1) with (depth h - 1) by lia. destruct (Z.ltb_spec 0 (depth h)) as [P|P]; [|lia].
    destruct (Z.eqb_spec (depth h - 1) 0) as [Z0|Z0]; cbn [startdepth numstops total_elapsed last_start].
    + rewrite I2, I3. split; [reflexivity|]. split.
      * unfold u32. rewrite Zplus_mod_idemp_l. reflexivity.
      * destruct (Z.ltb_spec 0 (depth h - 1)); [lia|]. rewrite u64_add, u64_add_l. f_equal. lia.
    + split; [reflexivity|]. split.
      * rewrite I2. f_equal. lia.
      * rewrite I3. destruct (Z.ltb_spec 0 (depth h - 1)); [|lia]. f_equal. lia.
Qed.

Lemma nested_app h h' : nested (h ++ h') -> nested h.
Proof. intros N h1 h2 ->. apply (N h1 (h2 ++ h')). symmetry. apply app_assoc. Qed.

Lemma running_keeps h h' : nested (h ++ h') -> (forall h1 h2, h' = h1 ++ h2 -> h1 <> [] -> 0 < depth (h ++ h1)) ->
  elapsed_microseconds (after (h ++ h')) = elapsed_microseconds (after h).
Proof.
  induction h' as [|e h' IH] using rev_ind; intros N P; [rewrite app_nil_r; reflexivity|].
  rewrite app_assoc in N. rewrite app_assoc, after_snoc. pose proof (nested_app _ _ N) as N'.
  assert (E : elapsed_microseconds (after (h ++ h')) = elapsed_microseconds (after h)).
  { apply IH; [exact N'|]. intros h1 h2 -> Nn. apply (P h1 (h2 ++ [e])); [symmetry; apply app_assoc|exact Nn]. }
  rewrite <- E. destruct (after_spec _ N') as (I1 & _). destruct (nested_snoc _ _ N) as (_ & D).
  destruct e as [t|t]; [reflexivity|]. cbn [apply_event]. unfold stop. rewrite I1.
  specialize (P (h' ++ [Stop t]) [] (eq_sym (app_nil_r _))). rewrite app_assoc, depth_snoc in P. cbn [delta] in *.
  assert (0 < depth (h ++ h') + -1) by (apply P; destruct h'; discriminate).
  replace (u32 (depth (h ++ h') - 1)) with (depth (h ++ h') - 1) by (symmetry; unfold u32; apply Z.mod_small; lia).
  destruct (Z.eqb_spec (depth (h ++ h') - 1) 0); [lia|reflexivity].
Qed.

(** ** Sets *)

Fixpoint look (s : watch_set) (name : str) : option watch :=
  match s with [] => None | (n, w) :: s => if str_eqb n name then Some w else look s name end.

Lemma get_spec s name : snd (get s name) = match look s name with Some w => w | None => new_watch end /\
  forall n, look (fst (get s name)) n = if str_eqb n name then Some (snd (get s name)) else look s n.
Proof.
  induction s as [|(m, w) s (IH1 & IH2)]; cbn [get look].
  - split; [reflexivity|]. intros n. cbn [fst snd look]. destruct (str_eqb name n) eqn:E.
    + apply str_eqb_spec in E. subst n. rewrite str_eqb_refl. reflexivity.
    + destruct (str_eqb n name) eqn:E2; [|reflexivity]. apply str_eqb_spec in E2. subst n. rewrite str_eqb_refl in E. discriminate.
  - destruct (str_eqb m name) eqn:E.
    + cbn [fst snd]. split; [reflexivity|]. intros n. apply str_eqb_spec in E. subst m. cbn [look].
      destruct (str_eqb n name) eqn:E2; [|reflexivity]. apply str_eqb_spec in E2. subst n. rewrite str_eqb_refl. reflexivity.
    + destruct (get s name) as (s', w') eqn:G. cbn [fst snd look] in *. split; [exact IH1|]. intros n. rewrite IH2.
      destruct (str_eqb m n) eqn:E2; [|reflexivity]. apply str_eqb_spec in E2. subst n. rewrite E. reflexivity.
Qed.

Lemma set_watch_spec s name w : look s name <> None -> forall n, look (set_watch s name w) n = if str_eqb n name then Some w else look s n.
Proof.
  intros L n. induction s as [|(m, v) s IH]; cbn [look set_watch] in *; [congruence|].
  destruct (str_eqb m name) eqn:E; cbn [look].
  - apply str_eqb_spec in E. subst m. destruct (str_eqb n name) eqn:E2.
    + apply str_eqb_spec in E2. subst n. rewrite str_eqb_refl. reflexivity.
    + destruct (str_eqb name n) eqn:E3; [|reflexivity]. apply str_eqb_spec in E3. subst n. rewrite str_eqb_refl in E2. discriminate.
  - rewrite IH by exact L. destruct (str_eqb m n) eqn:E2; [|reflexivity]. apply str_eqb_spec in E2. subst n. rewrite E. reflexivity.
Qed.

Definition events_of (name : str) (h : list (str * option event)) : list event :=
  flat_map (fun c => if str_eqb (fst c) name then match snd c with Some e => [e] | None => [] end else []) h.

Lemma set_after_spec h name :
  look (set_after h) name = if existsb (fun c => str_eqb (fst c) name) h then Some (after (events_of name h)) else None.
Proof.
  induction h as [|(n, o) h IH] using rev_ind; [reflexivity|].
  unfold set_after in *. rewrite fold_left_app. cbn [fold_left]. set (s := fold_left named_call h []) in *.
  rewrite existsb_app. unfold events_of. rewrite flat_map_app. cbn [flat_map existsb fst snd]. rewrite orb_false_r, app_nil_r. fold (events_of name h).
  unfold named_call. cbn [fst snd]. destruct (get_spec s n) as (G1 & G2). destruct (get s n) as (s', w). cbn [fst snd] in *.
  assert (Ls : look s' n <> None) by (rewrite G2, str_eqb_refl; discriminate).
  assert (Sym : str_eqb n name = str_eqb name n).
  { destruct (str_eqb n name) eqn:E1, (str_eqb name n) eqn:E2; try reflexivity.
    - apply str_eqb_spec in E1. subst. rewrite str_eqb_refl in E2. discriminate.
    - apply str_eqb_spec in E2. subst. rewrite str_eqb_refl in E1. discriminate. }
  assert (W : str_eqb name n = true -> w = after (events_of name h)).
  { intros E. apply str_eqb_spec in E. subst n. rewrite G1, IH. destruct (existsb _ h) eqn:Ex; [reflexivity|].
    replace (events_of name h) with (@nil event); [reflexivity|]. symmetry. unfold events_of. clear - Ex.
    induction h as [|c h IHh]; [reflexivity|]. cbn [existsb flat_map] in *. apply orb_false_iff in Ex as (E1 & E2). rewrite E1. apply IHh. exact E2. }
  destruct o as [e|].
  - rewrite set_watch_spec by exact Ls. rewrite Sym. destruct (str_eqb name n) eqn:E.
    + rewrite orb_true_r. rewrite after_snoc, <- (W eq_refl). reflexivity.
    + rewrite orb_false_r, app_nil_r, G2, E. exact IH.
  - rewrite G2, Sym. destruct (str_eqb name n) eqn:E.
    + rewrite orb_true_r, app_nil_r, <- (W eq_refl). reflexivity.
    + rewrite orb_false_r, app_nil_r. exact IH.
Qed.
