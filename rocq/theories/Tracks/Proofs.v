From Coq Require Import List ZArith Lia Bool Relations Sorting.Sorted.
From Verif Require Import Lib.Base Lib.Lists Lib.OMap CNet.Model Tracks.Model Tracks.Spec.
Import ListNotations.
Open Scope Z_scope.

Lemma zz_order : strict_order zz_ltb.
Proof. apply pair_order; apply Z_order. Qed.
Lemma kp_order : strict_order kp_ltb.
Proof. apply pair_order; [apply pair_order|]; apply Z_order. Qed.

Notation getp := (get zz_ltb).
Notation gett := (get Z.ltb).

(** ** Joining *)

Lemma joined_more {X} (l m : list (X * X)) x y : incl l m -> joined l x y -> joined m x y.
Proof.
  intros I. induction 1 as [x y R|x|x y R IH|x y z R1 IH1 R2 IH2].
  - apply rst_step, I, R.
  - apply rst_refl.
  - now apply rst_sym.
  - eapply rst_trans; eauto.
Qed.

(** ** Tracks *)

Definition state_ok (l : list ((Z * Z) * (Z * Z))) (t : tracking) : Prop :=
  ordered zz_ltb (pids t) /\ ordered Z.ltb (tracks t) /\
  map fst (tracks t) = map Z.of_nat (seq 0 (length (tracks t))) /\
  (forall p tr, gett p (tracks t) = Some tr -> ordered Z.ltb tr) /\
  (forall x p, getp x (pids t) = Some p -> 0 <= p < Z.of_nat (length (tracks t)) /\ matched l x) /\
  (forall p tr c f, gett p (tracks t) = Some tr -> gett c tr = Some f -> getp (c, f) (pids t) = Some p) /\
  (forall c f p, getp (c, f) (pids t) = Some p -> exists tr g, gett p (tracks t) = Some tr /\ gett c tr = Some g) /\
  (forall x y p, getp x (pids t) = Some p -> getp y (pids t) = Some p -> joined l x y) /\
  (forall x, matched l x -> exists p, getp x (pids t) = Some p) /\
  (forall p tr, gett p (tracks t) = Some tr -> exists c d f g, c <> d /\ gett c tr = Some f /\ gett d tr = Some g).

Lemma seq_keys_get {V} (m : list (Z * V)) n p : map fst m = map Z.of_nat (seq 0 n) -> (gett p m <> None <-> 0 <= p < Z.of_nat n).
Proof.
  intros E. rewrite (get_none Z.ltb Z_order), E, in_map_iff. split.
  - intros N. destruct (Z.ltb_spec p 0) as [L|G].
    + exfalso. apply N. intros (i & <- & _). lia.
    + split; auto. destruct (Z.ltb_spec p (Z.of_nat n)) as [L|GE]; auto. exfalso. apply N. intros (i & <- & I). apply in_seq in I. lia.
  - intros B N. apply N. exists (Z.to_nat p). rewrite Z2Nat.id by lia. split; auto. apply in_seq. lia.
Qed.

Lemma modify_existing_keys {V} p (d : V) f m : ordered Z.ltb m -> In p (map fst m) -> map fst (modify Z.ltb p d f m) = map fst m.
Proof.
  destruct Z_order as (IR & T & E).
  induction m as [|[k v] m IH]; intros S I; [destruct I|]. apply ordered_cons in S. destruct S as (S & L). cbn [modify].
  destruct (Z.ltb p k) eqn:A.
  - exfalso. cbn [map fst In] in I. destruct I as [->|I]; [rewrite IR in A; discriminate|]. apply L in I.
    apply Z.ltb_lt in A. apply Z.ltb_lt in I. lia.
  - destruct (Z.ltb k p) eqn:B; cbn [map fst]; [|reflexivity]. f_equal. apply IH; auto.
    cbn [map fst In] in I. destruct I as [->|I]; auto. rewrite IR in B. discriminate.
Qed.

Lemma modify_last_keys {V} p (d : V) f m : (forall k, In k (map fst m) -> k < p) -> map fst (modify Z.ltb p d f m) = map fst m ++ [p].
Proof.
  induction m as [|[k v] m IH]; intros L; [reflexivity|]. cbn [modify].
  assert (k < p) by (apply L; now left). destruct (Z.ltb_spec p k); [lia|]. destruct (Z.ltb_spec k p); [|lia].
  cbn [map fst app]. f_equal. apply IH. intros; apply L; now right.
Qed.

Lemma matched_snoc {X} (l : list (X * X)) a b x : matched (l ++ [(a, b)]) x <-> matched l x \/ x = a \/ x = b.
Proof.
  unfold matched. split.
  - intros (y & [I|I]); apply in_app_iff in I; destruct I as [I|[I|[]]]; eauto; injection I as -> ->; auto.
  - intros [(y & D)|[->| ->]].
    + exists y. rewrite !in_app_iff. tauto.
    + exists b. left. apply in_app_iff. right. now left.
    + exists a. right. apply in_app_iff. right. now left.
Qed.

Lemma pid_of_spec l t c f : state_ok l t ->
  (pid_of t c f = -1 /\ getp (c, f) (pids t) = None) \/ (0 <= pid_of t c f /\ getp (c, f) (pids t) = Some (pid_of t c f)).
Proof.
  intros (_ & _ & _ & _ & B & _). unfold pid_of. destruct (getp (c, f) (pids t)) as [p|] eqn:E; auto. right.
  split; auto. apply (B _ _ E).
Qed.

Definition feat_eqb := keqb zz_ltb.
Lemma feat_eqbP a b : reflect (a = b) (feat_eqb a b).
Proof. apply keqb_spec, zz_order. Qed.

(** A match with one feature in track [p]: the other one, [(c, f)], joins it. *)
Lemma extend_ok l t c f y p : state_ok l t -> getp (c, f) (pids t) = None -> getp y (pids t) = Some p ->
  forall l', incl l l' -> (forall x, matched l' x <-> matched l x \/ x = (c, f) \/ x = y) -> joined l' (c, f) y ->
  state_ok l' (set_track p c f (set_pid c f p t)).
Proof.
  intros (S1 & S2 & K & S3 & B & TP & PT & J & MP & TW) N Y l' INC MA JO.
  unfold state_ok, set_track, set_pid. cbn [pids tracks].
  destruct (B _ _ Y) as (BP & MY).
  assert (GP : forall x, getp x (put zz_ltb (c, f) p (pids t)) = if feat_eqb x (c, f) then Some p else getp x (pids t)).
  { intros x. apply get_put; auto. apply zz_order. }
  assert (GT : forall q, gett q (modify Z.ltb p [] (put Z.ltb c f) (tracks t)) =
    if Z.eqb q p then Some (put Z.ltb c f match gett p (tracks t) with Some v => v | None => [] end) else gett q (tracks t)).
  { intros q. rewrite get_modify by (auto; apply Z_order). destruct (keqb_spec Z.ltb Z_order q p), (Z.eqb_spec q p); congruence. }
  assert (EXP : exists tr0, gett p (tracks t) = Some tr0).
  { destruct (gett p (tracks t)) eqn:E; eauto. exfalso. apply (seq_keys_get (tracks t) _ p K) in BP. contradiction. }
  destruct EXP as (tr0 & E0). rewrite E0 in GT. pose proof (S3 _ _ E0) as ST0.
  assert (GC : forall x, gett x (put Z.ltb c f tr0) = if Z.eqb x c then Some f else gett x tr0).
  { intros x. rewrite get_put by (auto; apply Z_order). destruct (keqb_spec Z.ltb Z_order x c), (Z.eqb_spec x c); congruence. }
  assert (LEN : length (modify Z.ltb p [] (put Z.ltb c f) (tracks t)) = length (tracks t)).
  { rewrite <- (map_length fst), <- (map_length fst (tracks t)). f_equal. apply modify_existing_keys; auto.
    rewrite K, in_map_iff. exists (Z.to_nat p). rewrite Z2Nat.id by lia. split; auto. apply in_seq. lia. }
  split; [apply put_ordered; auto; apply zz_order|]. split; [apply modify_ordered; auto; apply Z_order|].
  split.
  { rewrite LEN, <- K. apply modify_existing_keys; auto. rewrite K, in_map_iff. exists (Z.to_nat p).
    rewrite Z2Nat.id by lia. split; auto. apply in_seq. lia. }
  rewrite LEN. split; [|split; [|split; [|split; [|split; [|split]]]]].
  - intros q tr E. rewrite GT in E. destruct (Z.eqb_spec q p) as [->|NQ]; [injection E as <-; apply put_ordered; auto; apply Z_order|eauto].
  - intros x q E. rewrite GP in E. destruct (feat_eqbP x (c, f)) as [->|NX].
    + injection E as <-. split; auto. apply MA. auto.
    + destruct (B _ _ E) as (B' & M'). split; auto. apply MA. auto.
  - intros q tr d g E1 E2. rewrite GT in E1. rewrite GP. destruct (Z.eqb_spec q p) as [->|NQ].
    + injection E1 as <-. rewrite GC in E2. destruct (Z.eqb_spec d c) as [->|ND].
      * injection E2 as <-. destruct (feat_eqbP (c, f) (c, f)); [reflexivity|contradiction].
      * pose proof (TP _ _ _ _ E0 E2) as G. destruct (feat_eqbP (d, g) (c, f)) as [Q|]; [congruence|exact G].
    + pose proof (TP _ _ _ _ E1 E2) as G. destruct (feat_eqbP (d, g) (c, f)) as [Q|]; [congruence|exact G].
  - intros d g q E. rewrite GP in E. destruct (feat_eqbP (d, g) (c, f)) as [Q|NX].
    + injection Q as -> ->. injection E as <-. exists (put Z.ltb c f tr0), f. split.
      * rewrite GT. now rewrite Z.eqb_refl.
      * rewrite GC. now rewrite Z.eqb_refl.
    + destruct (PT _ _ _ E) as (tr & g' & E1 & E2). destruct (Z.eqb_spec q p) as [->|NQ].
      * rewrite E0 in E1. injection E1 as <-. exists (put Z.ltb c f tr0). rewrite GT, Z.eqb_refl.
        destruct (Z.eqb_spec d c) as [->|ND]; [exists f|exists g']; (split; [reflexivity|]); rewrite GC.
        -- now rewrite Z.eqb_refl.
        -- destruct (Z.eqb_spec d c); [contradiction|exact E2].
      * exists tr, g'. rewrite GT. destruct (Z.eqb_spec q p); [contradiction|auto].
  - intros x z q EX EZ. rewrite GP in EX, EZ.
    destruct (feat_eqbP x (c, f)) as [->|NX]; destruct (feat_eqbP z (c, f)) as [->|NZ].
    + apply rst_refl.
    + injection EX as <-. eapply rst_trans; [exact JO|]. eapply joined_more; [exact INC|]. eauto.
    + injection EZ as <-. apply rst_sym. eapply rst_trans; [exact JO|]. eapply joined_more; [exact INC|]. eauto.
    + eapply joined_more; [exact INC|]. eauto.
  - intros x M. rewrite GP. destruct (feat_eqbP x (c, f)) as [->|NX]; [eauto|]. apply MA in M. destruct M as [M|[->| ->]]; eauto. congruence.
  - intros q tr E. rewrite GT in E. destruct (Z.eqb_spec q p) as [->|NQ]; [|eauto]. injection E as <-.
    destruct (TW _ _ E0) as (d & e & g & g' & ND & G1 & G2).
    exists d, e, (if Z.eqb d c then f else g), (if Z.eqb e c then f else g'). split; auto. rewrite !GC.
    destruct (Z.eqb d c), (Z.eqb e c); auto.
Qed.

Lemma new_ok l t a f b g : state_ok l t -> a <> b -> getp (a, f) (pids t) = None -> getp (b, g) (pids t) = None ->
  let p := Z.of_nat (length (tracks t)) in
  state_ok (l ++ [((a, f), (b, g))]) (set_track p b g (set_track p a f (set_pid b g p (set_pid a f p t)))).
Proof.
  intros (S1 & S2 & K & S3 & B & TP & PT & J & MP & TW) NAB NA NB p. set (l' := l ++ [((a, f), (b, g))]).
  unfold state_ok, set_track, set_pid. cbn [pids tracks].
  set (ps := put zz_ltb (b, g) p (put zz_ltb (a, f) p (pids t))).
  set (ts := modify Z.ltb p [] (put Z.ltb b g) (modify Z.ltb p [] (put Z.ltb a f) (tracks t))).
  set (tr0 := put Z.ltb b g (put Z.ltb a f [])).
  assert (SP1 : ordered zz_ltb (put zz_ltb (a, f) p (pids t))) by (apply put_ordered; auto; apply zz_order).
  assert (GP : forall x, getp x ps = if feat_eqb x (b, g) then Some p else if feat_eqb x (a, f) then Some p else getp x (pids t)).
  { intros x. unfold ps. rewrite get_put by (auto; apply zz_order). fold (feat_eqb x (b, g)). destruct (feat_eqb x (b, g)); auto.
    apply get_put; auto. apply zz_order. }
  assert (ST1 : ordered Z.ltb (modify Z.ltb p [] (put Z.ltb a f) (tracks t))) by (apply modify_ordered; auto; apply Z_order).
  assert (GN : gett p (tracks t) = None).
  { destruct (gett p (tracks t)) eqn:E; auto. exfalso. assert (X : gett p (tracks t) <> None) by congruence.
    apply (seq_keys_get (tracks t) _ p K) in X. unfold p in X. lia. }
  assert (ZE : forall u v, keqb Z.ltb u v = Z.eqb u v).
  { intros u v. destruct (keqb_spec Z.ltb Z_order u v), (Z.eqb_spec u v); congruence. }
  assert (GT : forall q, gett q ts = if Z.eqb q p then Some tr0 else gett q (tracks t)).
  { intros q. unfold ts. rewrite get_modify by (auto; apply Z_order). rewrite !get_modify by (auto; apply Z_order).
    rewrite !ZE, Z.eqb_refl, GN. destruct (Z.eqb q p); reflexivity. }
  assert (S0 : ordered Z.ltb tr0) by (apply put_ordered; [apply Z_order|apply put_ordered; [apply Z_order|constructor]]).
  assert (GC : forall x, gett x tr0 = if Z.eqb x b then Some g else if Z.eqb x a then Some f else None).
  { intros x. unfold tr0. rewrite get_put; [|apply Z_order|apply put_ordered; [apply Z_order|constructor]].
    rewrite ZE. destruct (Z.eqb x b); auto. rewrite get_put by (try apply Z_order; constructor). rewrite ZE. reflexivity. }
  assert (KB : forall k, In k (map fst (tracks t)) -> k < p).
  { rewrite K. intros k I. apply in_map_iff in I. destruct I as (i & <- & I). apply in_seq in I. unfold p. lia. }
  assert (KT : map fst ts = map fst (tracks t) ++ [p]).
  { unfold ts. rewrite modify_existing_keys; auto; [now apply modify_last_keys|]. rewrite modify_last_keys by auto. apply in_app_iff. right. now left. }
  assert (LEN : length ts = S (length (tracks t))).
  { rewrite <- (map_length fst), KT, app_length, map_length. cbn [length]. lia. }
  assert (INC : incl l l') by (unfold l'; intros x I; apply in_app_iff; now left).
  assert (JO : joined l' (a, f) (b, g)) by (apply rst_step; unfold l'; apply in_app_iff; right; now left).
  assert (MA : forall x, matched l' x <-> matched l x \/ x = (a, f) \/ x = (b, g)) by (intros x; apply matched_snoc).
  assert (CASES : forall x q, getp x ps = Some q -> ((x = (a, f) \/ x = (b, g)) /\ q = p) \/ (x <> (a, f) /\ x <> (b, g) /\ getp x (pids t) = Some q)).
  { intros x q E. rewrite GP in E. destruct (feat_eqbP x (b, g)) as [->|NX]; [injection E as <-; auto|].
    destruct (feat_eqbP x (a, f)) as [->|NX2]; [injection E as <-; auto|]. auto. }
  assert (OLD : forall x q, getp x (pids t) = Some q -> getp x ps = Some q /\ q <> p).
  { intros x q E. rewrite GP. destruct (feat_eqbP x (b, g)) as [->|NX]; [congruence|].
    destruct (feat_eqbP x (a, f)) as [->|NX2]; [congruence|]. split; auto. apply B in E. unfold p. lia. }
  assert (GA : getp (a, f) ps = Some p).
  { rewrite GP. destruct (feat_eqbP (a, f) (b, g)); auto. destruct (feat_eqbP (a, f) (a, f)); congruence. }
  assert (GB : getp (b, g) ps = Some p) by (rewrite GP; destruct (feat_eqbP (b, g) (b, g)); congruence).
  split; [unfold ps; apply put_ordered; auto; apply zz_order|]. split; [apply modify_ordered; auto; apply Z_order|].
  split; [rewrite LEN, seq_S, map_app, KT, K; reflexivity|].
  rewrite LEN. split; [|split; [|split; [|split; [|split; [|split]]]]].
  - intros q tr E. rewrite GT in E. destruct (Z.eqb_spec q p); [injection E as <-; auto|eauto].
  - intros x q E. apply CASES in E. destruct E as [(D & ->)|(_ & _ & E)].
    + split; [unfold p; lia|]. apply MA. tauto.
    + destruct (B _ _ E) as (B' & M'). split; [lia|]. apply MA. auto.
  - intros q tr c h E1 E2. rewrite GT in E1. destruct (Z.eqb_spec q p) as [->|NQ].
    + injection E1 as <-. rewrite GC in E2. destruct (Z.eqb_spec c b) as [->|N1]; [injection E2 as <-; auto|].
      destruct (Z.eqb_spec c a) as [->|N2]; [injection E2 as <-; auto|discriminate].
    + apply OLD. eapply TP; eauto.
  - intros c h q E. apply CASES in E. destruct E as [(D & ->)|(_ & _ & E)].
    + exists tr0. rewrite GT, Z.eqb_refl. destruct D as [D|D]; injection D as -> ->.
      * exists f. split; auto. rewrite GC. destruct (Z.eqb_spec a b); [contradiction|]. now rewrite Z.eqb_refl.
      * exists g. split; auto. rewrite GC. now rewrite Z.eqb_refl.
    + destruct (PT _ _ _ E) as (tr & g' & E1 & E2). exists tr, g'. rewrite GT. destruct (OLD _ _ E) as (_ & NQ).
      destruct (Z.eqb_spec q p); [contradiction|auto].
  - intros x z q EX EZ. apply CASES in EX. apply CASES in EZ.
    destruct EX as [(DX & ->)|(_ & _ & EX)]; destruct EZ as [(DZ & QZ)|(_ & _ & EZ)].
    + destruct DX as [->| ->], DZ as [->| ->]; try apply rst_refl; auto. now apply rst_sym.
    + apply OLD in EZ. destruct EZ as (_ & []). reflexivity.
    + subst q. apply OLD in EX. destruct EX as (_ & []). reflexivity.
    + eapply joined_more; [exact INC|]. eauto.
  - intros x M. apply MA in M. destruct M as [M|[->| ->]]; eauto. destruct (MP _ M) as (q & E). exists q. now apply OLD.
  - intros q tr E. rewrite GT in E. destruct (Z.eqb_spec q p) as [->|NQ]; [|eauto]. injection E as <-.
    exists a, b, f, g. split; auto. rewrite !GC, !Z.eqb_refl. destruct (Z.eqb_spec a b); [contradiction|auto].
Qed.

Lemma add_match_ok l t a b f g : state_ok l t -> a <> b -> state_ok (l ++ [((a, f), (b, g))]) (add_match a b (f, g) t).
Proof.
  intros OK NAB. unfold add_match.
  assert (INC : incl l (l ++ [((a, f), (b, g))])) by (intros x I; apply in_app_iff; now left).
  assert (JO : joined (l ++ [((a, f), (b, g))]) (a, f) (b, g)) by (apply rst_step, in_app_iff; right; now left).
  destruct (pid_of_spec l t a f OK) as [(E1 & G1)|(E1 & G1)]; destruct (pid_of_spec l t b g OK) as [(E2 & G2)|(E2 & G2)].
  - rewrite E1, E2. cbn [Z.leb Z.ltb Z.compare andb]. now apply new_ok.
  - rewrite E1. destruct (Z.leb_spec 0 (pid_of t b g)); [|lia]. cbn [Z.leb Z.ltb Z.compare andb].
    eapply extend_ok; eauto. intros x. apply matched_snoc.
  - rewrite E2. destruct (Z.leb_spec 0 (pid_of t a f)); [|lia]. cbn [Z.leb Z.ltb Z.compare andb].
    eapply extend_ok; eauto.
    + intros x. rewrite matched_snoc. tauto.
    + now apply rst_sym.
  - destruct (Z.leb_spec 0 (pid_of t a f)); [|lia]. destruct (Z.leb_spec 0 (pid_of t b g)); [|lia]. cbn [andb].
    destruct OK as (S1 & S2 & K & S3 & B & TP & PT & J & MP & TW).
    split; [exact S1|]. split; [exact S2|]. split; [exact K|]. split; [exact S3|]. split; [|split; [exact TP|split; [exact PT|split; [|split; [|exact TW]]]]].
    + intros x p E. destruct (B _ _ E) as (B' & M'). split; auto. apply matched_snoc. auto.
    + intros x y p EX EY. eapply joined_more; [exact INC|]. eauto.
    + intros x M. apply matched_snoc in M. destruct M as [M|[->| ->]]; eauto.
Qed.

Lemma build_state_ok pw : (forall e, In e pw -> fst (fst e) <> snd (fst e)) ->
  state_ok (links pw) (fold_left (fun t e => fold_left (fun t m => add_match (fst (fst e)) (snd (fst e)) m t) (snd e) t) pw (Tracking [] [])).
Proof.
  intros D.
  assert (G : forall pw l t, (forall e, In e pw -> fst (fst e) <> snd (fst e)) -> state_ok l t ->
    state_ok (l ++ links pw) (fold_left (fun t e => fold_left (fun t m => add_match (fst (fst e)) (snd (fst e)) m t) (snd e) t) pw t)).
  { clear pw D. induction pw as [|[[a b] ms] pw IH]; intros l t D OK; cbn [links flat_map fold_left fst snd].
    - now rewrite app_nil_r.
    - rewrite app_assoc. apply IH; [intros; apply D; now right|].
      assert (NAB : a <> b) by (apply (D ((a, b), ms)); now left).
      clear - OK NAB. revert l t OK. induction ms as [|[f g] ms IM]; intros l t OK; cbn [map fold_left fst snd].
      + now rewrite app_nil_r.
      + change (l ++ ((a, f), (b, g)) :: map (fun m => ((a, fst m), (b, snd m))) ms) with
          (l ++ [((a, f), (b, g))] ++ map (fun m => ((a, fst m), (b, snd m))) ms).
        rewrite app_assoc. apply IM. now apply add_match_ok. }
  change (links pw) with ([] ++ links pw). apply G; auto.
  unfold state_ok. cbn [pids tracks get length map seq].
  split; [constructor|]. split; [constructor|]. split; [reflexivity|]. repeat split; intros; try discriminate.
  destruct H as (y & [[]|[]]).
Qed.
