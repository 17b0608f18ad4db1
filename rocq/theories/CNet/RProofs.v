From Coq Require Import List ZArith Lia Bool Sorting.Sorted Permutation.
From Verif Require Import Lib.Base Lib.Lists Lib.SMap CNet.Model CNet.Relation CNet.RSpec.
Import ListNotations.
Open Scope nat_scope.

(** ** Places *)

Lemma places_app {X} (f : X -> bool) l m : places f (l ++ m) = places f l ++ map (fun i => List.length l + i) (places f m).
Proof.
  unfold places. rewrite app_length, seq_app, filter_app. f_equal.
  - apply filter_ext_in. intros i I. apply in_seq in I. rewrite nth_error_app1 by lia. reflexivity.
  - cbn [Nat.add]. generalize (List.length m) as n. intros n.
    rewrite <- (Nat.add_0_r (List.length l)) at 1. generalize 0 as s. revert n.
    induction n as [|n IH]; intros s; cbn [seq filter map]; [reflexivity|].
    rewrite nth_error_app2 by lia. replace (List.length l + s - List.length l) with s by lia.
    specialize (IH (S s)). rewrite Nat.add_succ_r in IH. rewrite IH.
    destruct (match nth_error m s with Some x => f x | None => false end); cbn [map]; reflexivity.
Qed.

Lemma in_places {X} (f : X -> bool) l i : In i (places f l) <-> exists x, nth_error l i = Some x /\ f x = true.
Proof.
  unfold places. rewrite filter_In, in_seq. split.
  - intros (L & E). destruct (nth_error l i) as [x|]; [eauto|discriminate].
  - intros (x & E & F). rewrite E. split; auto. apply nth_error_lt in E. lia.
Qed.

Lemma places_none {X} (f : X -> bool) l : (forall x, In x l -> f x = false) -> places f l = [].
Proof.
  intros N. destruct (places f l) as [|i p] eqn:E; auto. assert (I : In i (places f l)) by (rewrite E; now left).
  apply in_places in I. destruct I as (x & EX & T). apply nth_error_In in EX. rewrite N in T by auto. discriminate.
Qed.

Lemma places_all {X} (f : X -> bool) l : (forall x, In x l -> f x = true) -> places f l = seq 0 (List.length l).
Proof.
  intros A. unfold places. assert (G : forall s, (forall i, In i s -> i < List.length l) ->
    filter (fun i => match nth_error l i with Some x => f x | None => false end) s = s).
  { induction s as [|i s IH]; intros B; cbn [filter]; auto.
    destruct (nth_error_ex l i (B i (or_introl eq_refl))) as (x & E). rewrite E, (A x) by (eapply nth_error_In; eauto).
    f_equal. apply IH. intros; apply B; now right. }
  apply G. intros i I. apply in_seq in I. lia.
Qed.

(** ** Nodes *)

Lemma new_nodes_ok : forall c i, new_nodes i c = map (fun j => CNode j [] []) (seq i c).
Proof. induction c as [|c IH]; intros i; cbn [new_nodes seq map]; [reflexivity|]. now rewrite IH. Qed.

Definition cnt (n0 : nat) (obs : list (nat * measure)) : nat := fold_right (fun o n => Nat.max (S (mimage (snd o))) n) n0 obs.

Lemma cnt_app n0 a b : cnt n0 (a ++ b) = cnt (cnt n0 b) a.
Proof. unfold cnt. now rewrite fold_right_app. Qed.
Lemma cnt_max a : forall n k, cnt (Nat.max k n) a = Nat.max k (cnt n a).
Proof. induction a as [|o a IH]; intros; cbn [cnt fold_right]; [reflexivity|]. fold (cnt (Nat.max k n) a) (cnt n a). rewrite IH. lia. Qed.
Lemma cnt_snoc n0 a o : cnt n0 (a ++ [o]) = Nat.max (S (mimage (snd o))) (cnt n0 a).
Proof. rewrite cnt_app. cbn [cnt fold_right]. apply cnt_max. Qed.
Lemma cnt_in n0 a o : In o a -> mimage (snd o) < cnt n0 a.
Proof. induction a as [|x a IH]; intros I; [destruct I|]. cbn [cnt fold_right]. fold (cnt n0 a). destruct I as [->|I]; [lia|]. specialize (IH I). lia. Qed.

Definition nodes_of (n0 : nat) (obs : list (nat * measure)) : list cnode :=
  map (fun j => CNode j (in_image j obs) []) (seq 0 (cnt n0 obs)).

Lemma in_image_snoc j obs o : in_image j (obs ++ [o]) = in_image j obs ++ (if Nat.eqb (mimage (snd o)) j then [List.length obs] else []).
Proof.
  unfold in_image. rewrite places_app. f_equal. unfold places. cbn [List.length seq filter nth_error].
  destruct (Nat.eqb (mimage (snd o)) j); cbn [map]; [rewrite Nat.add_0_r|]; reflexivity.
Qed.

Lemma in_image_out n0 j obs : cnt n0 obs <= j -> in_image j obs = [].
Proof.
  intros L. apply places_none. intros o I. apply (cnt_in n0) in I. apply Nat.eqb_neq. lia.
Qed.

Lemma nth_error_ext {X} : forall (l m : list X), (forall i, nth_error l i = nth_error m i) -> l = m.
Proof.
  induction l as [|x l IH]; intros [|y m] E; auto; try (specialize (E 0); discriminate).
  pose proof (E 0) as E0. cbn in E0. injection E0 as ->. f_equal. apply IH. intros i. exact (E (S i)).
Qed.

Lemma nth_map_seq {X} (f : nat -> X) s : forall n i, nth_error (map f (seq s n)) i = if i <? n then Some (f (s + i)) else None.
Proof.
  intros n. revert s. induction n as [|n IH]; intros s [|i]; cbn [seq map nth_error]; auto.
  - now rewrite Nat.add_0_r.
  - rewrite IH, Nat.add_succ_r. reflexivity.
Qed.

Lemma modify_at_ok {X} (l : list X) i f x : nth_error l i = Some x -> modify_at l i f = Ok (upd l i (f x)).
Proof. intros E. unfold modify_at, at_. now rewrite E. Qed.

Lemma upd_nth {X} (l : list X) i v j : i < List.length l -> nth_error (upd l i v) j = if Nat.eqb j i then Some v else nth_error l j.
Proof.
  intros L. destruct (Nat.eqb_spec j i) as [->|N]; [now apply upd_eq|]. apply upd_neq. auto.
Qed.

Lemma add_node_ok n0 obs p m :
  modify_at (if List.length (nodes_of n0 obs) <=? mimage m then nodes_of n0 obs ++ new_nodes (List.length (nodes_of n0 obs)) (S (mimage m) - List.length (nodes_of n0 obs)) else nodes_of n0 obs)
    (mimage m) (fun n => with_relations (crelations n ++ [List.length obs]) n) = Ok (nodes_of n0 (obs ++ [(p, m)])).
Proof.
  assert (LN : List.length (nodes_of n0 obs) = cnt n0 obs) by (unfold nodes_of; now rewrite map_length, seq_length).
  rewrite LN.
  assert (E : (if cnt n0 obs <=? mimage m then nodes_of n0 obs ++ new_nodes (cnt n0 obs) (S (mimage m) - cnt n0 obs) else nodes_of n0 obs) =
    map (fun j => CNode j (in_image j obs) []) (seq 0 (cnt n0 (obs ++ [(p, m)])))).
  { rewrite cnt_snoc. cbn [snd]. destruct (Nat.leb_spec (cnt n0 obs) (mimage m)) as [L|L].
    - rewrite Nat.max_l by lia. replace (S (mimage m)) with (cnt n0 obs + (S (mimage m) - cnt n0 obs)) at 2 by lia.
      rewrite seq_app, map_app. unfold nodes_of. f_equal. rewrite new_nodes_ok. cbn [Nat.add]. apply map_ext_in.
      intros j I. apply in_seq in I. now rewrite (in_image_out n0 j obs) by lia.
    - rewrite Nat.max_r by lia. reflexivity. }
  rewrite E. assert (LT : mimage m < cnt n0 (obs ++ [(p, m)])) by (rewrite cnt_snoc; cbn [snd]; lia).
  erewrite modify_at_ok.
  2: { rewrite nth_map_seq. destruct (Nat.ltb_spec (mimage m) (cnt n0 (obs ++ [(p, m)]))); [reflexivity|lia]. }
  f_equal. apply nth_error_ext. intros j. rewrite upd_nth by (rewrite map_length, seq_length; auto).
  unfold nodes_of. rewrite !nth_map_seq. cbn [Nat.add with_relations crelations cid cmap].
  rewrite in_image_snoc. cbn [snd].
  destruct (Nat.eqb_spec j (mimage m)) as [->|N].
  - destruct (Nat.ltb_spec (mimage m) (cnt n0 (obs ++ [(p, m)]))); [|lia]. now rewrite Nat.eqb_refl.
  - destruct (Nat.ltb_spec j (cnt n0 (obs ++ [(p, m)]))); auto.
    destruct (Nat.eqb_spec (mimage m) j); [congruence|]. now rewrite app_nil_r.
Qed.

Lemma add_features_ok n0 p : forall ms obs h added, List.length h = List.length obs ->
  add_features p ms (Rel (nodes_of n0 obs) h) added =
    Ok (Rel (nodes_of n0 (obs ++ map (pair p) ms)) (h ++ map (fun m => new_feature m p) ms),
        added ++ seq (List.length obs) (List.length ms)).
Proof.
  induction ms as [|m ms IH]; intros obs h added L; cbn [add_features map List.length seq rnodes rheap].
  - now rewrite !app_nil_r.
  - rewrite L, (add_node_ok n0 obs p m). cbn [bind]. rewrite IH by (rewrite !app_length; cbn [List.length]; lia).
    rewrite <- !app_assoc, app_length. cbn [app List.length]. rewrite Nat.add_1_r. reflexivity.
Qed.

(** ** Connections *)

Definition linked (h h' : list feature) (g : nat -> list nat) : Prop :=
  List.length h' = List.length h /\
  forall i x, nth_error h i = Some x -> nth_error h' i = Some (with_conn (fconn x ++ g i) x).

Lemma with_conn_self x : with_conn (fconn x) x = x.
Proof. destruct x; reflexivity. Qed.
Lemma with_conn_twice a b x : with_conn a (with_conn b x) = with_conn a x.
Proof. reflexivity. Qed.

Lemma linked_refl h : linked h h (fun _ => []).
Proof. split; auto. intros i x E. now rewrite app_nil_r, with_conn_self. Qed.
Lemma linked_trans h h1 h2 f g : linked h h1 f -> linked h1 h2 g -> linked h h2 (fun i => f i ++ g i).
Proof.
  intros (L1 & E1) (L2 & E2). split; [congruence|]. intros i x E. apply E1, E2 in E. cbn [fconn with_conn] in E.
  rewrite E, with_conn_twice, <- app_assoc. reflexivity.
Qed.
Lemma linked_ext h h' f g : (forall i, f i = g i) -> linked h h' f -> linked h h' g.
Proof. intros X (L & E). split; auto. intros i x EX. rewrite <- X. auto. Qed.

Lemma connection_ok h f c : f < List.length h -> exists h', connection h f c false = Ok h' /\ linked h h' (fun i => if Nat.eqb i f then [c] else []).
Proof.
  intros L. destruct (nth_error_ex h f L) as (x & E). unfold connection. erewrite modify_at_ok by eauto. cbn [andb].
  eexists. split; [reflexivity|]. split; [apply upd_length|]. intros i y EY. rewrite upd_nth by auto.
  destruct (Nat.eqb_spec i f) as [->|N].
  - congruence.
  - now rewrite app_nil_r, with_conn_self.
Qed.

Lemma link_one_ok a : forall rest h, a < List.length h -> (forall i, In i rest -> i < List.length h) -> ~ In a rest -> NoDup rest ->
  exists h', link_one h a rest = Ok h' /\
    linked h h' (fun i => if Nat.eqb i a then rest else if existsb (Nat.eqb i) rest then [a] else []).
Proof.
  induction rest as [|b rest IH]; intros h LA IN NI ND; cbn [link_one].
  - exists h. split; auto. eapply linked_ext; [|apply linked_refl]. intros i. cbn [existsb]. destruct (Nat.eqb i a); reflexivity.
  - destruct (connection_ok h a b LA) as (h1 & -> & K1). cbn [bind]. pose proof (proj1 K1) as L1.
    destruct (connection_ok h1 b a) as (h2 & -> & K2); [rewrite L1; apply IN; now left|]. cbn [bind]. pose proof (proj1 K2) as L2.
    inversion ND; subst.
    destruct (IH h2) as (h3 & -> & K3); try (rewrite L2, L1); auto.
    + intros; apply IN; now right.
    + intros I; apply NI; now right.
    + eexists. split; [reflexivity|].
      eapply linked_ext; [|eapply linked_trans; [eapply linked_trans; [exact K1|exact K2]|exact K3]].
      intros i. cbn beta. cbn [existsb].
      assert (NAB : a <> b) by (intros ->; apply NI; now left).
      destruct (Nat.eqb_spec i a) as [->|NA].
      * destruct (Nat.eqb_spec a b); [contradiction|]. reflexivity.
      * destruct (Nat.eqb_spec i b) as [->|NB]; cbn [app orb]; [|reflexivity].
        assert (E : existsb (Nat.eqb b) rest = false).
        { destruct (existsb (Nat.eqb b) rest) eqn:E; auto. apply existsb_exists in E. destruct E as (y & Iy & Q). apply Nat.eqb_eq in Q. subst. contradiction. }
        now rewrite E.
Qed.

Lemma existsb_In i (l : list nat) : existsb (Nat.eqb i) l = true <-> In i l.
Proof.
  rewrite existsb_exists. split; [intros (y & I & Q); apply Nat.eqb_eq in Q; now subst|].
  intros I. exists i. split; auto. apply Nat.eqb_refl.
Qed.

Lemma filter_all {X} (f : X -> bool) l : (forall x, In x l -> f x = true) -> filter f l = l.
Proof. induction l as [|x l IH]; intros A; cbn [filter]; auto. rewrite A by (now left). f_equal. apply IH. intros; apply A; now right. Qed.

Lemma link_all_ok : forall fs h, (forall i, In i fs -> i < List.length h) -> NoDup fs ->
  exists h', link_all h fs = Ok h' /\
    linked h h' (fun i => if existsb (Nat.eqb i) fs then filter (fun k => negb (Nat.eqb k i)) fs else []).
Proof.
  induction fs as [|a fs IH]; intros h IN ND; cbn [link_all].
  - exists h. split; auto. apply linked_refl.
  - inversion ND as [|? ? NI ND']; subst.
    destruct (link_one_ok a fs h) as (h1 & -> & K1); auto.
    + apply IN. now left.
    + intros; apply IN; now right.
    + cbn [bind]. pose proof (proj1 K1) as L1.
      destruct (IH h1) as (h2 & -> & K2); auto; [rewrite L1; intros; apply IN; now right|].
      eexists. split; [reflexivity|]. eapply linked_ext; [|eapply linked_trans; [exact K1|exact K2]].
      intros i. cbn beta. cbn [existsb filter].
      destruct (Nat.eqb_spec i a) as [->|NA].
      * rewrite Nat.eqb_refl. cbn [orb negb].
        assert (E : existsb (Nat.eqb a) fs = false).
        { destruct (existsb (Nat.eqb a) fs) eqn:E; auto. apply existsb_In in E. contradiction. }
        rewrite E, app_nil_r. symmetry. apply filter_all. intros x I. destruct (Nat.eqb_spec x a); [subst; contradiction|reflexivity].
      * cbn [orb]. destruct (Nat.eqb_spec a i); [congruence|]. cbn [negb].
        destruct (existsb (Nat.eqb i) fs); reflexivity.
Qed.

(** ** Points *)

Definition feature_of (obs : list (nat * measure)) (i : nat) (p : nat) (m : measure) (fm : smap nat) : feature :=
  Feat (mimage m) p (mcol m) (mrow m) (mcol_sigma m) (mrow_sigma m) (partners i obs) fm.

Definition heap_ok (obs : list (nat * measure)) (h : list feature) : Prop :=
  List.length h = List.length obs /\
  forall i p m, nth_error obs i = Some (p, m) -> nth_error h i = Some (feature_of obs i p m []).

Lemma filter_map_comm {X Y} (g : Y -> X) (f : X -> bool) l : filter f (map g l) = map g (filter (fun y => f (g y)) l).
Proof. induction l as [|y l IH]; cbn [map filter]; auto. destruct (f (g y)); cbn [map]; now rewrite IH. Qed.

Lemma partners_old obs p ms i : i < List.length obs -> (forall o, In o obs -> fst o < p) ->
  partners i (obs ++ map (pair p) ms) = partners i obs.
Proof.
  intros L LT. unfold partners. rewrite nth_error_app1 by auto. destruct (nth_error obs i) as [[q m]|] eqn:E; auto.
  rewrite places_app. rewrite (places_none _ (map (pair p) ms)); [now rewrite app_nil_r|].
  intros o I. apply in_map_iff in I. destruct I as (m' & <- & _). cbn [fst]. apply nth_error_In, LT in E. cbn [fst] in E.
  apply Nat.eqb_neq. lia.
Qed.

Lemma partners_new obs p ms i m : nth_error ms i = Some m -> (forall o, In o obs -> fst o < p) ->
  partners (List.length obs + i) (obs ++ map (pair p) ms) =
    filter (fun k => negb (Nat.eqb k (List.length obs + i))) (seq (List.length obs) (List.length ms)).
Proof.
  intros E LT. unfold partners. rewrite nth_error_app2 by lia. rewrite Nat.add_comm, Nat.add_sub, nth_error_map, E. cbn [option_map].
  rewrite places_app, (places_none _ obs).
  - cbn [app]. f_equal. rewrite places_all.
    + rewrite map_length. generalize (List.length ms). intros n. clear.
      assert (G : forall k s, map (fun i => List.length obs + i) (seq s k) = seq (List.length obs + s) k).
      { induction k as [|k IHk]; intros s; cbn [seq map]; auto. rewrite IHk, Nat.add_succ_r. reflexivity. }
      rewrite G, Nat.add_0_r. reflexivity.
    + intros o I. apply in_map_iff in I. destruct I as (m' & <- & _). apply Nat.eqb_refl.
  - intros o I. apply LT in I. apply Nat.eqb_neq. lia.
Qed.

Lemma add_points_ok n0 : forall ps p obs h, heap_ok obs h -> (forall o, In o obs -> fst o < p) ->
  (forall q, In q ps -> pmeasures q <> []) ->
  exists h', add_points p ps (Rel (nodes_of n0 obs) h) = Ok (Rel (nodes_of n0 (obs ++ numbered p ps)) h') /\
    heap_ok (obs ++ numbered p ps) h'.
Proof.
  induction ps as [|q ps IH]; intros p obs h HO LT NE; cbn [add_points numbered].
  - exists h. rewrite app_nil_r. auto.
  - destruct HO as (L & HO). set (ms := pmeasures q).
    rewrite (add_features_ok n0 p ms obs h [] L). cbn [bind app].
    assert (NM : ms <> []) by (apply NE; now left).
    assert (SN : seq (List.length obs) (List.length ms) <> []) by (destruct ms; [contradiction|discriminate]).
    destruct (link_all_ok (seq (List.length obs) (List.length ms)) (h ++ map (fun m => new_feature m p) ms)) as (h1 & EL & (LL & KL)).
    + intros i I. apply in_seq in I. rewrite app_length, map_length. lia.
    + apply seq_NoDup.
    + cbn [rheap rnodes]. rewrite EL.
      assert (HO1 : heap_ok (obs ++ map (pair p) ms) h1).
      { split; [rewrite LL, !app_length, !map_length; lia|]. intros i p' m E.
        destruct (Nat.lt_ge_cases i (List.length obs)) as [LI|GI].
        - rewrite nth_error_app1 in E by auto. apply HO in E. assert (E1 := E).
          rewrite <- (nth_error_app1 _ (map (fun m => new_feature m p) ms)) in E by lia. apply KL in E.
          assert (EX : existsb (Nat.eqb i) (seq (List.length obs) (List.length ms)) = false).
          { destruct (existsb _ _) eqn:X; auto. apply existsb_In, in_seq in X. lia. }
          rewrite EX, app_nil_r, with_conn_self in E. rewrite E. unfold feature_of. now rewrite partners_old by auto.
        - rewrite nth_error_app2 in E by auto. rewrite nth_error_map in E.
          destruct (nth_error ms (i - List.length obs)) as [m'|] eqn:EM; [|discriminate]. cbn [option_map] in E. injection E as <- ->.
          assert (EH : nth_error (h ++ map (fun m => new_feature m p) ms) i = Some (new_feature m p)).
          { rewrite nth_error_app2 by lia. rewrite L, nth_error_map, EM. reflexivity. }
          apply KL in EH. rewrite EH. f_equal. unfold feature_of, with_conn, new_feature. cbn [fcamera fpoint fcol frow fcol_scale frow_scale fconn fmap app].
          assert (EX : existsb (Nat.eqb i) (seq (List.length obs) (List.length ms)) = true).
          { apply existsb_In, in_seq. apply nth_error_lt in EM. lia. }
          rewrite EX. pose proof (partners_new obs p ms _ m EM LT) as PN.
          replace (List.length obs + (i - List.length obs)) with i in PN by lia. now rewrite PN. }
      destruct (IH (S p) (obs ++ map (pair p) ms) h1 HO1) as (h2 & E2 & HO2).
      * intros o I. apply in_app_iff in I. destruct I as [I|I]; [apply LT in I; lia|].
        apply in_map_iff in I. destruct I as (m' & <- & _). cbn [fst]. lia.
      * intros; apply NE; now right.
      * exists h2. rewrite <- app_assoc in E2, HO2. split; [|exact HO2].
        destruct (seq (List.length obs) (List.length ms)); [contradiction|]. cbn [bind]. exact E2.
Qed.

Lemma add_points_empty n0 q : forall a b p obs h, heap_ok obs h -> (forall o, In o obs -> fst o < p) ->
  (forall x, In x a -> pmeasures x <> []) -> pmeasures q = [] ->
  add_points p (a ++ q :: b) (Rel (nodes_of n0 obs) h) = UB BadIter.
Proof.
  induction a as [|x a IH]; intros b p obs h HO LT NE EQ; cbn [app add_points].
  - rewrite EQ. reflexivity.
  - pose proof (add_points_ok n0 [x] p obs h HO LT) as AP.
    destruct AP as (h1 & E & HO1); [intros y [<-|[]]; apply NE; now left|].
    cbn [add_points numbered] in E, HO1. rewrite app_nil_r in E, HO1.
    destruct (add_features p (pmeasures x) (Rel (nodes_of n0 obs) h) []) as [[r added]| |]; [|discriminate|discriminate].
    cbn [bind] in E |- *. destruct added as [|f fs]; [discriminate|].
    destruct (link_all (rheap r) (f :: fs)) as [h2| |]; [|discriminate|discriminate]. cbn [bind] in E |- *.
    injection E as EN EH. rewrite EN, EH. apply IH; auto.
    + intros o I. apply in_app_iff in I. destruct I as [I|I]; [apply LT in I; lia|].
      apply in_map_iff in I. destruct I as (m' & <- & _). cbn [fst]. lia.
    + intros; apply NE; now right.
Qed.

(** ** Maps *)

Lemma under_app {X} k (a b : list (Z * X)) : under k (a ++ b) = under k a ++ under k b.
Proof. unfold under. now rewrite filter_app, map_app. Qed.
Lemma under_cons {X} k k' (v : X) m : under k ((k', v) :: m) = (if Z.eqb k' k then [v] else []) ++ under k m.
Proof. unfold under. cbn [filter fst]. destruct (Z.eqb k' k); reflexivity. Qed.
Lemma under_before {X} k c (m : smap X) : under k (before c m) = if (k <? c)%Z then under k m else [].
Proof.
  unfold under, before. induction m as [|[k' v] m IH]; cbn [filter fst map]; [now destruct (k <? c)%Z|].
  destruct (Z.ltb_spec k' c); cbn [filter fst].
  - destruct (Z.eqb_spec k' k) as [->|N]; cbn [map snd]; rewrite IH.
    + destruct (Z.ltb_spec k c); [reflexivity|lia].
    + reflexivity.
  - rewrite IH. destruct (Z.eqb_spec k' k) as [->|N]; auto. destruct (Z.ltb_spec k c); [lia|reflexivity].
Qed.
Lemma under_from {X} k c (m : smap X) : under k (from c m) = if (c <=? k)%Z then under k m else [].
Proof.
  unfold under, from. induction m as [|[k' v] m IH]; cbn [filter fst map]; [now destruct (c <=? k)%Z|].
  destruct (Z.leb_spec c k'); cbn [filter fst].
  - destruct (Z.eqb_spec k' k) as [->|N]; cbn [map snd]; rewrite IH.
    + destruct (Z.leb_spec c k); [reflexivity|lia].
    + reflexivity.
  - rewrite IH. destruct (Z.eqb_spec k' k) as [->|N]; auto. destruct (Z.leb_spec c k); [lia|reflexivity].
Qed.
Lemma under_assign {X} k k' (v : X) m : under k (assign k' v m) = if Z.eqb k' k then [v] else under k m.
Proof.
  unfold assign. rewrite under_app, under_cons, under_before, under_from.
  destruct (Z.eqb_spec k' k) as [->|N].
  - destruct (Z.ltb_spec k k); [lia|]. destruct (Z.leb_spec (k + 1) k); [lia|]. reflexivity.
  - destruct (Z.ltb_spec k k'), (Z.leb_spec (k' + 1) k); try lia; cbn [app]; rewrite ?app_nil_r; reflexivity.
Qed.
Lemma under_multi k k' v m : under k (multi_insert k' v m) = under k m ++ (if Z.eqb k' k then [v] else []).
Proof.
  unfold multi_insert. rewrite under_app, under_cons, under_before, under_from.
  destruct (Z.eqb_spec k' k) as [->|N].
  - destruct (Z.ltb_spec k (k + 1)), (Z.leb_spec (k + 1) k); try lia. reflexivity.
  - cbn [app]. destruct (Z.ltb_spec k (k' + 1)), (Z.leb_spec (k' + 1) k); try lia; rewrite ?app_nil_r; reflexivity.
Qed.

Definition img (obs : list (nat * measure)) (i : nat) : nat := match image_of obs i with Some j => j | None => 0 end.
Definition fmap_of (obs : list (nat * measure)) (i : nat) : smap nat :=
  fold_left (fun m c => assign (Z.of_nat (img obs c)) c m) (partners i obs) [].

Definition keeps (obs : list (nat * measure)) (h : list feature) : Prop :=
  List.length h = List.length obs /\
  forall i p m, nth_error obs i = Some (p, m) -> exists fm, nth_error h i = Some (feature_of obs i p m fm).

Lemma partners_inside obs i c : In c (partners i obs) -> c < List.length obs.
Proof.
  unfold partners. destruct (nth_error obs i) as [[p m]|]; [|intros []]. rewrite filter_In, in_places.
  intros ((x & E & _) & _). eapply nth_error_lt; eauto.
Qed.

Lemma map_loop_ok obs h : keeps obs h -> forall cs m, (forall c, In c cs -> c < List.length obs) ->
  map_loop h cs m = Ok (fold_left (fun m c => assign (Z.of_nat (img obs c)) c m) cs m).
Proof.
  intros (L & K). induction cs as [|c cs IH]; intros m IN; cbn [map_loop fold_left]; auto.
  destruct (nth_error_ex obs c (IN c (or_introl eq_refl))) as ([p ms] & E). destruct (K c p ms E) as (fm & EF).
  unfold at_. rewrite EF. cbn [bind feature_of fcamera].
  assert (EI : img obs c = mimage ms) by (unfold img, image_of; now rewrite E). rewrite <- EI. apply IH. intros; apply IN; now right.
Qed.

Lemma build_feature_map_ok obs h f : keeps obs h -> f < List.length obs -> exists h',
  build_feature_map h f = Ok h' /\ keeps obs h' /\
  (forall x, nth_error h' f = Some x -> fmap x = fmap_of obs f) /\
  (forall i, i <> f -> nth_error h' i = nth_error h i).
Proof.
  intros K LF. assert (K0 := K). destruct K as (L & K). destruct (nth_error_ex obs f LF) as ([p m] & E). destruct (K f p m E) as (fm & EF).
  unfold build_feature_map, at_. rewrite EF. cbn [bind feature_of fconn].
  rewrite (map_loop_ok obs h K0) by (intros c; apply partners_inside). cbn [bind].
  erewrite modify_at_ok by eauto. eexists. split; [reflexivity|].
  assert (LH : f < List.length h) by lia. split; [split|split].
  - rewrite upd_length. exact L.
  - intros i p' m' E'. rewrite upd_nth by auto. destruct (Nat.eqb_spec i f) as [->|N]; [|auto].
    rewrite E in E'. injection E' as <- <-. eexists. reflexivity.
  - intros x EX. rewrite upd_nth, Nat.eqb_refl in EX by auto. injection EX as <-. reflexivity.
  - intros i N. rewrite upd_nth by auto. destruct (Nat.eqb_spec i f); [contradiction|reflexivity].
Qed.

Definition mapped (obs : list (nat * measure)) (h : list feature) (i : nat) : Prop :=
  forall x, nth_error h i = Some x -> fmap x = fmap_of obs i.

Lemma build_feature_maps_ok obs : forall fs h, keeps obs h -> (forall f, In f fs -> f < List.length obs) -> exists h',
  build_feature_maps h fs = Ok h' /\ keeps obs h' /\
  (forall i, In i fs \/ mapped obs h i -> mapped obs h' i).
Proof.
  induction fs as [|f fs IH]; intros h K IN; cbn [build_feature_maps].
  - exists h. repeat split; auto; try apply K. intros i [[]|M]; auto.
  - destruct (build_feature_map_ok obs h f K (IN f (or_introl eq_refl))) as (h1 & -> & K1 & M1 & O1). cbn [bind].
    destruct (IH h1 K1) as (h2 & -> & K2 & M2); [intros; apply IN; now right|].
    exists h2. split; auto. split; auto. intros i HI. apply M2.
    destruct (Nat.eq_dec i f) as [->|N]; [right; exact M1|].
    destruct HI as [[->|I]|M]; [contradiction|auto|]. right. intros x EX. rewrite O1 in EX by auto. auto.
Qed.

Lemma node_map_ok obs h : keeps obs h -> forall fs m, (forall f, In f fs -> f < List.length obs /\ mapped obs h f) ->
  node_map h fs m = Ok (fold_left (fun m f => insert_keys f (fmap_of obs f) m) fs m).
Proof.
  intros (L & K). induction fs as [|f fs IH]; intros m IN; cbn [node_map fold_left]; auto.
  destruct (IN f (or_introl eq_refl)) as (LF & MF).
  destruct (nth_error_ex obs f LF) as ([p ms] & E). destruct (K f p ms E) as (fm & EF).
  unfold at_. rewrite EF. cbn [bind]. rewrite (MF _ EF). apply IH. intros; apply IN; now right.
Qed.

Definition cmap_of (obs : list (nat * measure)) (j : nat) : smap nat :=
  fold_left (fun m f => insert_keys f (fmap_of obs f) m) (in_image j obs) [].

Lemma build_maps_ok obs : forall js h, keeps obs h -> exists h',
  build_maps h (map (fun j => CNode j (in_image j obs) []) js) = Ok (h', map (fun j => CNode j (in_image j obs) (cmap_of obs j)) js) /\
  keeps obs h' /\ (forall i, mapped obs h i \/ (exists j, In j js /\ In i (in_image j obs)) -> mapped obs h' i).
Proof.
  induction js as [|j js IH]; intros h K; cbn [map build_maps].
  - exists h. split; auto. split; auto. intros i [M|(j & [] & _)]. auto.
  - cbn [crelations].
    assert (IN : forall f, In f (in_image j obs) -> f < List.length obs).
    { intros f I. apply in_places in I. destruct I as (x & E & _). eapply nth_error_lt; eauto. }
    destruct (build_feature_maps_ok obs (in_image j obs) h K IN) as (h1 & -> & K1 & M1). cbn [bind].
    rewrite (node_map_ok obs h1 K1) by (intros f I; split; auto). cbn [bind].
    destruct (IH h1 K1) as (h2 & -> & K2 & M2). cbn [bind]. exists h2. split; [reflexivity|]. split; auto.
    intros i [M|(j' & [<-|I] & II)]; apply M2; eauto.
Qed.

Lemma under_fmap obs k : forall l m, under k (fold_left (fun m c => assign (Z.of_nat (img obs c)) c m) l m) =
  match rev (filter (fun c => Z.eqb (Z.of_nat (img obs c)) k) l) with [] => under k m | c :: _ => [c] end.
Proof.
  induction l as [|c l IH]; intros m; cbn [fold_left filter rev]; auto.
  rewrite IH, under_assign. destruct (Z.eqb_spec (Z.of_nat (img obs c)) k) as [E|N]; cbn [rev]; [|reflexivity].
  destruct (rev (filter _ l)) as [|x r]; reflexivity.
Qed.

Lemma under_insert_keys k f : forall es m, under k (insert_keys f es m) = under k m ++ map (fun _ => f) (under k es).
Proof.
  unfold insert_keys. induction es as [|[k' v] es IH]; intros m; cbn [fold_left].
  - now rewrite app_nil_r.
  - rewrite IH, under_multi, under_cons. cbn [fst]. rewrite map_app, app_assoc. destruct (Z.eqb k' k); reflexivity.
Qed.

Lemma under_cmap obs k : forall fs m, under k (fold_left (fun m f => insert_keys f (fmap_of obs f) m) fs m) =
  under k m ++ filter (fun f => existsb (fun c => Z.eqb (Z.of_nat (img obs c)) k) (partners f obs)) fs.
Proof.
  induction fs as [|f fs IH]; intros m; cbn [fold_left filter]; [now rewrite app_nil_r|].
  rewrite IH, under_insert_keys, <- app_assoc. f_equal. unfold fmap_of. rewrite under_fmap.
  destruct (existsb _ (partners f obs)) eqn:E.
  - destruct (rev (filter _ (partners f obs))) as [|x r] eqn:R; [|reflexivity].
    apply existsb_exists in E. destruct E as (c & I & Q). assert (In c (filter (fun c => Z.eqb (Z.of_nat (img obs c)) k) (partners f obs))) by (apply filter_In; auto).
    apply in_rev in H. rewrite R in H. destruct H.
  - destruct (rev (filter _ (partners f obs))) as [|x r] eqn:R; [reflexivity|].
    assert (I : In x (rev (filter (fun c => Z.eqb (Z.of_nat (img obs c)) k) (partners f obs)))) by (rewrite R; now left).
    apply in_rev, filter_In in I. destruct I as (I & Q). assert (existsb (fun c => Z.eqb (Z.of_nat (img obs c)) k) (partners f obs) = true) by (apply existsb_exists; eauto). congruence.
Qed.

Lemma last_of_filter {X} (f : X -> bool) : forall l x r, rev (filter f l) = x :: r ->
  exists a b, l = a ++ x :: b /\ f x = true /\ forall y, In y b -> f y = false.
Proof.
  induction l as [|y l IH] using rev_ind; intros x r E; [discriminate|].
  rewrite filter_app, rev_app_distr in E. cbn [filter] in E. destruct (f y) eqn:F; cbn [rev app] in E.
  - injection E as <- <-. exists l, []. repeat split; auto; try (intros ? []).
  - apply IH in E. destruct E as (a & b & -> & T & N). exists a, (b ++ [y]). split; [now rewrite <- app_assoc|]. split; auto.
    intros z I. apply in_app_iff in I. destruct I as [I|[<-|[]]]; auto.
Qed.

Lemma multi_sorted k v m : StronglySorted (fun a b => (fst a <= fst b)%Z) m -> StronglySorted (fun a b => (fst a <= fst b)%Z) (multi_insert k v m).
Proof.
  intros S. unfold multi_insert. apply sorted_app. split; [now apply sorted_filter|]. split.
  - constructor; [now apply sorted_filter|]. apply Forall_forall. intros e I. apply in_from in I. cbn [fst]. lia.
  - intros a b IA IB. apply in_before in IA. destruct IB as [<-|IB]; cbn [fst]; [lia|]. apply in_from in IB. lia.
Qed.

Lemma cmap_sorted obs fs : forall m, StronglySorted (fun a b => (fst a <= fst b)%Z) m ->
  StronglySorted (fun a b => (fst a <= fst b)%Z) (fold_left (fun m f => insert_keys f (fmap_of obs f) m) fs m).
Proof.
  induction fs as [|f fs IH]; intros m S; cbn [fold_left]; auto. apply IH.
  unfold insert_keys. generalize (fmap_of obs f). intros es. revert m S. induction es as [|e es IE]; intros m S; cbn [fold_left]; auto.
  apply IE. now apply multi_sorted.
Qed.

(** ** Listing *)

Section Listing.
Variable h : list feature.
Hypothesis INS : connections_inside h.

Definition conns (f : nat) : list nat := match nth_error h f with Some x => fconn x | None => [] end.

Fixpoint go (fuel : nat) (cs listing : list nat) : res (list nat) :=
  match cs with
  | [] => Ok listing
  | c :: cs =>
      if existsb (Nat.eqb c) listing then go fuel cs listing
      else l <- list_connections fuel h c (listing ++ [c]) ;; go fuel cs l
  end.

Lemma list_unfold fuel f listing : f < List.length h -> list_connections (S fuel) h f listing = go fuel (conns f) listing.
Proof.
  intros L. cbn [list_connections]. unfold at_, conns. destruct (nth_error_ex h f L) as (x & E). rewrite E. cbn [bind].
  generalize (fconn x) as cs. clear E. intros cs. revert listing. induction cs as [|c cs IH]; intros listing; cbn [go]; auto.
  destruct (existsb (Nat.eqb c) listing); auto.
  destruct (list_connections fuel h c (listing ++ [c])); cbn [bind]; auto.
Qed.

(** What a call adds to the listing. *)
Definition lists (from0 : list nat) (listing l : list nat) : Prop :=
  NoDup l /\ (forall x, In x l -> x < List.length h) /\ incl listing l /\
  (forall x, In x from0 -> In x l) /\
  (forall x, In x l -> ~ In x listing -> (forall y, In y (conns x) -> In y l) /\ exists c, In c from0 /\ (x = c \/ reaches h c x)).

Lemma conns_inside f c : In c (conns f) -> c < List.length h.
Proof. unfold conns. destruct (nth_error h f) eqn:E; [|intros []]. eapply INS; eauto. Qed.
Lemma conns_reach f c : In c (conns f) -> reaches h f c.
Proof. unfold conns. destruct (nth_error h f) eqn:E; [|intros []]. intros I. eapply reach_one; eauto. Qed.
Lemma conns_reach_more f c x : In c (conns f) -> reaches h c x -> reaches h f x.
Proof. unfold conns. destruct (nth_error h f) eqn:E; [|intros []]. intros I R. eapply reach_more; eauto. Qed.

Lemma short (l : list nat) : NoDup l -> (forall x, In x l -> x < List.length h) -> List.length l <= List.length h.
Proof.
  intros ND IN. rewrite <- (seq_length (List.length h) 0). apply NoDup_incl_length; auto.
  intros x I. apply in_seq. apply IN in I. lia.
Qed.

Lemma listing_ok : forall fuel f listing, f < List.length h -> NoDup listing -> (forall x, In x listing -> x < List.length h) ->
  List.length h < fuel + List.length listing ->
  exists l, list_connections fuel h f listing = Ok l /\ lists (conns f) listing l.
Proof.
  induction fuel as [|fuel IH]; intros f listing LF ND IN FU.
  - exfalso. pose proof (short listing ND IN). lia.
  - rewrite list_unfold by auto.
    assert (G : forall cs listing, (forall c, In c cs -> c < List.length h) -> NoDup listing -> (forall x, In x listing -> x < List.length h) ->
      List.length h < S fuel + List.length listing -> exists l, go fuel cs listing = Ok l /\ lists cs listing l).
    { clear f listing LF ND IN FU. induction cs as [|c cs IC]; intros listing CI ND IN FU; cbn [go].
      - exists listing. split; auto. split; auto. split; auto. split; [apply incl_refl|]. split; [intros x []|]. intros x I NI. contradiction.
      - destruct (existsb (Nat.eqb c) listing) eqn:EX.
        + apply existsb_In in EX. destruct (IC listing) as (l & -> & N1 & I1 & C1 & F1 & A1); auto; [intros; apply CI; now right|].
          exists l. split; auto. split; auto. split; auto. split; auto. split.
          * intros x [<-|I]; auto.
          * intros x I NI. destruct (A1 x I NI) as (CL & c' & IC' & D). split; auto. exists c'. split; [now right|auto].
        + assert (NC : ~ In c listing) by (intros I; apply existsb_In in I; congruence).
          destruct (IH c (listing ++ [c])) as (l1 & -> & N1 & I1 & C1 & F1 & A1).
          * apply CI; now left.
          * apply (Permutation_NoDup (Permutation_cons_append listing c)). now constructor.
          * intros x I. apply in_app_iff in I. destruct I as [I|[<-|[]]]; auto. apply CI; now left.
          * rewrite app_length. cbn [List.length]. lia.
          * cbn [bind].
            assert (INC : incl listing l1) by (intros x I; apply C1, in_app_iff; auto).
            destruct (IC l1) as (l2 & -> & N2 & I2 & C2 & F2 & A2); auto.
            -- intros; apply CI; now right.
            -- pose proof (NoDup_incl_length ND INC). lia.
            -- exists l2. split; auto. split; auto. split; auto. split; [eapply incl_tran; eauto|]. split.
               ++ intros x [<-|I]; auto. apply C2, C1, in_app_iff. right. now left.
               ++ intros x I NI. destruct (in_dec Nat.eq_dec x l1) as [I'|NI'].
                  ** destruct (Nat.eq_dec x c) as [->|NX].
                     --- split; [intros y Iy; apply C2, F1; auto|]. exists c. split; [now left|auto].
                     --- destruct (A1 x I') as (CL & c' & IC' & D).
                         +++ intros I''. apply in_app_iff in I''. destruct I'' as [?|[->|[]]]; auto.
                         +++ split; [intros y Iy; apply C2; auto|]. exists c. split; [now left|]. right.
                             destruct D as [->|R]; [now apply conns_reach|]. eapply conns_reach_more; eauto.
                  ** destruct (A2 x I NI') as (CL & c' & IC' & D). split; auto. exists c'. split; [now right|auto]. }
    apply G; auto. intros c. apply conns_inside.
Qed.

Lemma lists_reach f l : lists (conns f) [] l -> forall g, In g l <-> reaches h f g.
Proof.
  intros (ND & IN & _ & F & A) g. split.
  - intros I. destruct (A g I (fun x => x)) as (_ & c & IC & [->|R]); [now apply conns_reach|eapply conns_reach_more; eauto].
  - intros R. assert (G : forall a b, reaches h a b -> (a = f \/ In a l) -> In b l).
    { intros a0 b0 R0. induction R0 as [a b y E I|a b c y E I R' IH]; intros D.
      - assert (IB : In b (conns a)) by (unfold conns; now rewrite E). destruct D as [->|D]; auto. apply (A a D (fun x => x)). auto.
      - apply IH. right. assert (IB : In b (conns a)) by (unfold conns; now rewrite E). destruct D as [->|D]; auto. apply (A a D (fun x => x)). auto. }
    eapply G; eauto.
Qed.
End Listing.
