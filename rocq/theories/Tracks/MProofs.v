From Coq Require Import List ZArith Lia Bool Relations Sorting.Sorted Permutation.
From Verif Require Import Lib.Base Lib.Lists Lib.Str Lib.OMap CNet.Model Tracks.Model Tracks.Spec Tracks.Proofs Tracks.LProofs.
Import ListNotations.
Open Scope Z_scope.

(** ** Numbers of the features *)

Lemma number_fst m : forall f, map fst (number f m) = map fst m.
Proof. induction m as [|[k v] m IH]; intros f; cbn [number map fst]; [reflexivity|]. now rewrite IH. Qed.
Lemma number_length m : forall f, length (number f m) = length m.
Proof. intros f. now rewrite <- (map_length fst), number_fst, map_length. Qed.

Lemma number_get m : ordered kp_ltb m -> forall f k j,
  get kp_ltb k (number f m) = Some j <-> f <= j /\ nth_error (map fst m) (Z.to_nat (j - f)) = Some k.
Proof.
  destruct kp_order as (IR & TR & TO).
  induction m as [|[k0 v] m IH]; intros S f k j; cbn [number get map fst].
  - split; [discriminate|]. intros (_ & E). destruct (Z.to_nat (j - f)); discriminate.
  - apply ordered_cons in S. destruct S as (S & L). destruct (keqb_spec kp_ltb kp_order k k0) as [->|N].
    + split.
      * intros [= ->]. split; [lia|]. now rewrite Z.sub_diag.
      * intros (LE & E). f_equal. destruct (Z.to_nat (j - f)) as [|i] eqn:EI; [lia|]. cbn [nth_error] in E.
        apply nth_error_In, L in E. rewrite IR in E. discriminate.
    + rewrite (IH S). split.
      * intros (LE & E). split; [lia|]. replace (Z.to_nat (j - f)) with (Datatypes.S (Z.to_nat (j - (f + 1)))) by lia. exact E.
      * intros (LE & E). destruct (Z.to_nat (j - f)) as [|i] eqn:EI; cbn [nth_error] in E; [congruence|]. split; [lia|].
        replace (Z.to_nat (j - (f + 1))) with i by lia. exact E.
Qed.

(** Feature [x] is the interest point [k]. *)
Definition is_kp (km : kmaps) (x : Z * Z) (k : kp) : Prop :=
  0 <= fst x /\ 0 <= snd x /\ exists m, nth_error km (Z.to_nat (fst x)) = Some m /\ nth_error (map fst m) (Z.to_nat (snd x)) = Some k.

Lemma is_kp_fun km x k k' : is_kp km x k -> is_kp km x k' -> k = k'.
Proof. intros (_ & _ & m & E & F) (_ & _ & m' & E' & F'). rewrite E in E'. injection E' as <-. congruence. Qed.

Lemma is_kp_inj n P km c f g k : km_set n P km -> is_kp km (c, f) k -> is_kp km (c, g) k -> f = g.
Proof.
  intros (L & K) (C & F & m & E & EF) (_ & G & m' & E' & EG). cbn [fst snd] in *. rewrite E in E'. injection E' as <-.
  destruct (K _ _ E) as (O & _). apply (ordered_nodup kp_ltb kp_order) in O.
  assert (Z.to_nat f = Z.to_nat g) by (eapply NoDup_nth_error; [exact O|eapply nth_error_lt; eauto|congruence]). lia.
Qed.

Lemma is_kp_number n P km c k : km_set n P km -> 0 <= c < Z.of_nat n -> P (c, k) -> exists m i,
  elem (map (number 0) km) c = Ok m /\ get kp_ltb k m = Some i /\ is_kp km (c, i) k.
Proof.
  intros (L & K) B PK. destruct (elem_ok (map (number 0) km) c) as (m & E & EM); [rewrite map_length; lia|].
  rewrite nth_error_map in E. destruct (nth_error km (Z.to_nat c)) as [m0|] eqn:E0; [|discriminate]. cbn [option_map] in E. injection E as <-.
  destruct (K _ _ E0) as (O & M). rewrite <- (Z2Nat.id c) in PK by lia. apply M in PK. apply In_nth_error in PK. destruct PK as (i & EI).
  exists (number 0 m0), (Z.of_nat i). split; auto. split.
  - apply number_get; auto. split; [lia|]. rewrite Z.sub_0_r, Nat2Z.id. exact EI.
  - split; [cbn; lia|]. split; [cbn; lia|]. exists m0. cbn [fst snd]. rewrite Nat2Z.id. auto.
Qed.

(** ** Matches of features *)

Lemma in_links pw x y : In (x, y) (links pw) <-> exists ms, In ((fst x, fst y), ms) pw /\ In (snd x, snd y) ms.
Proof.
  unfold links. rewrite in_flat_map. split.
  - intros ([[a b] ms] & I & J). cbn [fst snd] in J. apply in_map_iff in J. destruct J as ([f g] & [= <- <-] & J). exists ms. auto.
  - intros (ms & I & J). exists ((fst x, fst y), ms). split; auto. cbn [fst snd]. apply in_map_iff. exists (snd x, snd y). destruct x, y. auto.
Qed.

Lemma links_modify pair l pw x y : ordered zz_ltb pw ->
  (In (x, y) (links (modify zz_ltb pair [] (fun old => old ++ l) pw)) <->
   In (x, y) (links pw) \/ ((fst x, fst y) = pair /\ In (snd x, snd y) l)).
Proof.
  intros S. rewrite !in_links.
  assert (A : forall m, ordered zz_ltb m -> forall k (v : list (Z * Z)), In (k, v) m <-> get zz_ltb k m = Some v).
  { intros m O k v. split; [apply in_get; auto; apply zz_order|apply get_in; apply zz_order]. }
  split.
  - intros (ms & I & J). apply A in I; [|apply modify_ordered; auto; apply zz_order]. rewrite get_modify in I by (auto; apply zz_order).
    destruct (keqb_spec zz_ltb zz_order (fst x, fst y) pair) as [EP|N].
    + injection I as <-. apply in_app_iff in J. destruct J as [J|J]; auto. left.
      destruct (get zz_ltb pair pw) as [v|] eqn:G; [|destruct J]. exists v. split; auto. rewrite EP. apply A; auto.
    + left. exists ms. split; auto. apply A; auto.
  - intros [(ms & I & J)|(EP & J)].
    + apply A in I; auto. destruct (keqb_spec zz_ltb zz_order (fst x, fst y) pair) as [EP|N].
      * exists (ms ++ l). split; [|apply in_app_iff; auto]. apply A; [apply modify_ordered; auto; apply zz_order|].
        rewrite get_modify by (auto; apply zz_order). rewrite EP, keqb_refl by apply zz_order. rewrite EP in I. now rewrite I.
      * exists ms. split; auto. apply A; [apply modify_ordered; auto; apply zz_order|]. rewrite get_modify by (auto; apply zz_order).
        destruct (keqb_spec zz_ltb zz_order (fst x, fst y) pair); [contradiction|auto].
    + eexists. split; [apply A; [apply modify_ordered; auto; apply zz_order|]; rewrite get_modify by (auto; apply zz_order);
        rewrite EP, keqb_refl by apply zz_order; reflexivity|]. apply in_app_iff. auto.
Qed.

(** The match of features [x], [y] comes from the match of interest points. *)
Definition comes_from (km : kmaps) (l r : Z) (a b : kp) (x y : Z * Z) : Prop :=
  exists i j, is_kp km (l, i) a /\ is_kp km (r, j) b /\ ((l < r /\ x = (l, i) /\ y = (r, j)) \/ (r < l /\ x = (r, j) /\ y = (l, i))).

Lemma to_numbers_ok n P km l r : km_set n P km -> 0 <= l < Z.of_nat n -> 0 <= r < Z.of_nat n -> l <> r ->
  forall p1 p2, length p1 = length p2 -> (forall a b, In (a, b) (combine p1 p2) -> P (l, a) /\ P (r, b)) ->
  exists out, to_numbers (r <? l) l r p1 p2 (map (number 0) km) = Ok out /\
    forall f g, In (f, g) out <-> exists a b, In (a, b) (combine p1 p2) /\
      comes_from km l r a b (fst (if r <? l then (r, l) else (l, r)), f) (snd (if r <? l then (r, l) else (l, r)), g).
Proof.
  intros K BL BR NE. induction p1 as [|a p1 IH]; intros [|b p2] L IN; try discriminate; cbn [to_numbers combine].
  - exists []. split; auto. intros f g. split; [intros []|intros (a & b & [] & _)].
  - injection L as L. destruct (IN a b (or_introl eq_refl)) as (PA & PB).
    destruct (is_kp_number n P km l a K BL PA) as (ml & i & -> & GI & KI). cbn [bind]. rewrite GI.
    destruct (is_kp_number n P km r b K BR PB) as (mr & j & -> & GJ & KJ). cbn [bind]. rewrite GJ.
    destruct (IH p2 L ltac:(intros; apply IN; now right)) as (out & -> & O). cbn [bind]. eexists. split; [reflexivity|].
    intros f g. cbn [In combine]. rewrite O. split.
    + intros [E|(a' & b' & I & C)]; [|exists a', b'; auto]. exists a, b. split; auto. exists i, j. split; auto. split; auto.
      destruct (Z.ltb_spec r l); injection E as <- <-; cbn [fst snd]; [right|left]; repeat split; lia.
    + intros (a' & b' & [[= <- <-]|I] & C); [|right; exists a', b'; auto]. left. destruct C as (i' & j' & KI' & KJ' & D).
      assert (i' = i) by (eapply is_kp_inj; eauto). assert (j' = j) by (eapply is_kp_inj; eauto). subst i' j'.
      destruct (Z.ltb_spec r l); cbn [fst snd] in D; destruct D as [(LT & [= -> ] & [= ->])|(LT & [= ->] & [= ->])]; auto; lia.
Qed.

Lemma to_mvg_ok n P km : km_set n P km -> forall mm out,
  (forall l r p1 p2, In ((l, r), (p1, p2)) mm -> l <> r /\ length p1 = length p2 /\
     (combine p1 p2 <> [] -> 0 <= l < Z.of_nat n /\ 0 <= r < Z.of_nat n) /\
     forall a b, In (a, b) (combine p1 p2) -> P (l, a) /\ P (r, b)) ->
  ordered zz_ltb out -> (forall e, In e out -> fst (fst e) < snd (fst e)) ->
  exists out', to_mvg mm (map (number 0) km) out = Ok out' /\ ordered zz_ltb out' /\
    (forall e, In e out' -> fst (fst e) < snd (fst e)) /\
    forall x y, In (x, y) (links out') <-> In (x, y) (links out) \/
      exists l r p1 p2 a b, In ((l, r), (p1, p2)) mm /\ In (a, b) (combine p1 p2) /\ comes_from km l r a b x y.
Proof.
  intros K. induction mm as [|[[l r] [p1 p2]] mm IH]; intros out IN S LT; cbn [to_mvg].
  - exists out. repeat split; auto. intros [I|(l & r & p1 & p2 & a & b & [] & _)]. auto.
  - destruct (IN l r p1 p2 (or_introl eq_refl)) as (NE & LE & BB & PP).
    destruct (Z.eqb_spec l r); [contradiction|].
    assert (TN : exists ms, to_numbers (r <? l) l r p1 p2 (map (number 0) km) = Ok ms /\
      forall f g, In (f, g) ms <-> exists a b, In (a, b) (combine p1 p2) /\
        comes_from km l r a b (fst (if r <? l then (r, l) else (l, r)), f) (snd (if r <? l then (r, l) else (l, r)), g)).
    { destruct (combine p1 p2) as [|ab rest] eqn:EC.
      - destruct p1 as [|x p1]; [|destruct p2; discriminate]. exists []. split; [reflexivity|]. intros f g. split; [intros []|intros (a & b & [] & _)].
      - rewrite <- EC in *. destruct BB as (BL & BR); [rewrite EC; discriminate|]. apply (to_numbers_ok n P); auto. }
    destruct TN as (ms & -> & MS). cbn [bind].
    set (pair := if r <? l then (r, l) else (l, r)) in *.
    assert (PL : fst pair < snd pair) by (unfold pair; destruct (Z.ltb_spec r l); cbn; lia).
    destruct (IH (modify zz_ltb pair [] (fun old => old ++ ms) out)) as (out' & -> & S' & LT' & LI').
    + intros; apply IN; now right.
    + apply modify_ordered; auto. apply zz_order.
    + intros e I. apply (in_map fst) in I. apply modify_keys in I; [|apply zz_order]. destruct I as [->|I]; auto.
      apply in_map_iff in I. destruct I as (e' & <- & I). auto.
    + exists out'. split; auto. split; auto. split; auto. intros x y. rewrite LI', links_modify by auto. split.
      * intros [[I|(EP & I)]|(l' & r' & q1 & q2 & a & b & I & J & C)]; auto.
        -- right. apply MS in I. destruct I as (a & b & J & C). exists l, r, p1, p2, a, b. split; [now left|]. split; auto.
           rewrite <- EP in C. cbn [fst snd] in C. destruct x, y. exact C.
        -- right. exists l', r', q1, q2, a, b. split; [now right|auto].
      * intros [I|(l' & r' & q1 & q2 & a & b & [E|I] & J & C)]; auto.
        -- injection E as -> -> -> ->. left. right.
           assert (EP : (fst x, fst y) = pair).
           { destruct C as (i & j & _ & _ & [(LTT & -> & ->)|(LTT & -> & ->)]); unfold pair; destruct (Z.ltb_spec r' l'); cbn [fst]; auto; lia. }
           split; auto. apply MS. exists a, b. split; auto. rewrite <- EP. cbn [fst snd]. destruct x, y. exact C.
        -- right. exists l', r', q1, q2, a, b. auto.
Qed.

(** ** The network *)

Definition measure_of (km : kmaps) (x : Z * Z) (m : measure) : Prop :=
  exists a b s, is_kp km x (a, b, s) /\ m = new_measure a b s s (Z.to_nat (fst x)).

Lemma track_point_ok km : forall tr p, (forall x, In x tr -> exists k, is_kp km x k) ->
  exists ms, track_point (map (map fst) (map (number 0) km)) tr p = Ok (with_measures (pmeasures p ++ ms) p) /\
    Forall2 (measure_of km) tr ms.
Proof.
  induction tr as [|[c f] tr IH]; intros p IN; cbn [track_point].
  - exists []. rewrite app_nil_r. split; [|constructor]. destruct p; reflexivity.
  - destruct (IN (c, f) (or_introl eq_refl)) as ([[a b] s] & KK). assert (KK' := KK). destruct KK as (C & F & m & E & EF). cbn [fst snd] in *.
    unfold at_. destruct (Z.ltb_spec c 0); [lia|]. rewrite !nth_error_map, E. cbn [option_map bind].
    destruct (Z.ltb_spec f 0); [lia|]. rewrite number_fst, EF. cbn [bind].
    destruct (IH (add_measure (new_measure a b s s (Z.to_nat c)) p)) as (ms & -> & FM); [intros; apply IN; now right|].
    exists (new_measure a b s s (Z.to_nat c) :: ms). split.
    + unfold add_measure, with_measures. cbn [pmeasures pignore pposition psigma pptype]. rewrite <- app_assoc. reflexivity.
    + constructor; auto. exists a, b, s. auto.
Qed.

Definition point_of (km : kmaps) (e : Z * list (Z * Z)) (p : point) : Prop :=
  p = with_measures (pmeasures p) (new_point TiePoint) /\ Forall2 (measure_of km) (snd e) (pmeasures p).

Lemma add_tracks_ok km : forall ts net, (forall e, In e ts -> snd e <> [] /\ forall x, In x (snd e) -> exists k, is_kp km x k) ->
  exists ps, add_tracks (map (map fst) (map (number 0) km)) ts net = Ok (Net (npoints net ++ ps) (nimages net) (nntype net)) /\
    Forall2 (point_of km) ts ps.
Proof.
  induction ts as [|[p tr] ts IH]; intros net IN; cbn [add_tracks].
  - exists []. rewrite app_nil_r. split; [destruct net; reflexivity|constructor].
  - destruct (IN (p, tr) (or_introl eq_refl)) as (NE & KK). cbn [snd] in *.
    destruct (track_point_ok km tr (new_point TiePoint) KK) as (ms & -> & F). cbn [bind].
    assert (NM : ms <> []) by (destruct F; [contradiction|discriminate]).
    set (q := with_measures (pmeasures (new_point TiePoint) ++ ms) (new_point TiePoint)).
    assert (EQ : pmeasures q = ms) by reflexivity. rewrite EQ.
    destruct (Nat.ltb_spec 0 (length ms)) as [L|L]; [|destruct ms; [contradiction|cbn [length] in L; lia]].
    destruct (IH (add_control_point q net)) as (ps & -> & FP); [intros; apply IN; now right|].
    exists (q :: ps). split.
    + unfold add_control_point. cbn [npoints nimages nntype is_gcp]. rewrite <- app_assoc. cbn [app]. unfold q, is_gcp. cbn [pptype with_measures new_point].
      now rewrite andb_false_r.
    + constructor; auto. split; [reflexivity|]. cbn [snd]. rewrite EQ. exact F.
Qed.

Lemma add_images images : forall net, fold_left (fun net x => fst (add_image_name x net)) images net = Net (npoints net) (nimages net ++ images) (nntype net).
Proof.
  induction images as [|x images IH]; intros net; cbn [fold_left].
  - rewrite app_nil_r. destruct net; reflexivity.
  - rewrite IH. cbn [add_image_name fst npoints nimages nntype]. rewrite <- app_assoc. reflexivity.
Qed.

(** ** Interest points and features *)

Section Link.
Variable n : nat.
Variable K : list ((Z * kp) * (Z * kp)).
Variable km : kmaps.
Hypothesis KM : km_set n (matched K) km.
Variable L : list ((Z * Z) * (Z * Z)).
Hypothesis LI : forall x y, In (x, y) L <-> exists l r a b, In ((l, a), (r, b)) K /\ comes_from km l r a b x y.
Hypothesis BK : forall l a r b, In ((l, a), (r, b)) K -> l <> r /\ 0 <= l < Z.of_nat n /\ 0 <= r < Z.of_nat n.

Definition rel (x : Z * Z) (k : Z * kp) : Prop := fst k = fst x /\ is_kp km x (snd k).

Lemma rel_fun x k k' : rel x k -> rel x k' -> k = k'.
Proof.
  intros (E & A) (E' & A'). destruct k, k'. cbn [fst snd] in *. f_equal; [congruence|]. eapply is_kp_fun; eauto.
Qed.
Lemma rel_inj x y k : rel x k -> rel y k -> x = y.
Proof.
  intros (E & A) (E' & A'). destruct x as [c f], y as [c' g]. cbn [fst snd] in *. subst c c'. f_equal.
  exact (is_kp_inj n (matched K) km (fst k) f g (snd k) KM A A').
Qed.

Lemma link_down x y : In (x, y) L -> exists kx ky, rel x kx /\ rel y ky /\ (In (kx, ky) K \/ In (ky, kx) K).
Proof.
  intros I. apply LI in I. destruct I as (l & r & a & b & I & i & j & KI & KJ & [(LT & -> & ->)|(LT & -> & ->)]).
  - exists (l, a), (r, b). split; [split; auto|split; [split; auto|auto]].
  - exists (r, b), (l, a). split; [split; auto|split; [split; auto|auto]].
Qed.
Lemma link_up kx ky : In (kx, ky) K -> exists x y, rel x kx /\ rel y ky /\ (In (x, y) L \/ In (y, x) L).
Proof.
  destruct kx as [l a], ky as [r b]. intros I. destruct (BK _ _ _ _ I) as (NE & BL & BR).
  destruct (is_kp_number n (matched K) km l a KM BL) as (_ & i & _ & _ & KI); [exists (r, b); auto|].
  destruct (is_kp_number n (matched K) km r b KM BR) as (_ & j & _ & _ & KJ); [exists (l, a); auto|].
  exists (l, i), (r, j). split; [split; auto|]. split; [split; auto|].
  destruct (Z.lt_total l r) as [LT|[EQ|GT]]; [left|contradiction|right]; apply LI; exists l, r, a, b; (split; [auto|]);
    exists i, j; split; auto.
Qed.

Lemma matched_down x : matched L x -> exists k, rel x k /\ matched K k.
Proof.
  intros (y & [I|I]); apply link_down in I; destruct I as (kx & ky & A & B & [I|I]).
  - exists kx. split; auto. exists ky; auto.
  - exists kx. split; auto. exists ky; auto.
  - exists ky. split; auto. exists kx; auto.
  - exists ky. split; auto. exists kx; auto.
Qed.
Lemma matched_up k : matched K k -> exists x, rel x k /\ matched L x.
Proof.
  intros (y & [I|I]); apply link_up in I; destruct I as (x & x' & A & B & [I|I]).
  - exists x. split; auto. exists x'; auto.
  - exists x. split; auto. exists x'; auto.
  - exists x'. split; auto. exists x; auto.
  - exists x'. split; auto. exists x; auto.
Qed.

Lemma joined_down x y : joined L x y -> x = y \/ exists kx ky, rel x kx /\ rel y ky /\ joined K kx ky.
Proof.
  induction 1 as [x y I|x|x y J IH|x y z J IH J' IH'].
  - right. apply link_down in I. destruct I as (kx & ky & A & B & I). exists kx, ky. split; auto. split; auto.
    destruct I as [I|I]; [|apply rst_sym]; apply rst_step; auto.
  - auto.
  - destruct IH as [->|(kx & ky & A & B & C)]; auto. right. exists ky, kx. split; auto. split; auto. now apply rst_sym.
  - destruct IH as [->|(kx & ky & A & B & C)]; auto. destruct IH' as [->|(ky' & kz & A' & B' & C')]; [right; eauto 8|].
    right. exists kx, kz. split; auto. split; auto. assert (ky' = ky) by (eapply rel_fun; eauto). subst. eapply rst_trans; eauto.
Qed.

Lemma consistent_down : consistent K -> consistent L.
Proof.
  intros C c f g J. apply joined_down in J. destruct J as [[= ->]|([c1 k1] & [c2 k2] & A & B & J)]; auto.
  assert (c1 = c) by apply A. assert (c2 = c) by apply B. subst. apply C in J. subst k2.
  assert (E : (c, f) = (c, g)) by (eapply rel_inj; eauto). now injection E.
Qed.
End Link.

Lemma Forall2_in_r {A B} (R : A -> B -> Prop) l m y : Forall2 R l m -> In y m -> exists x, In x l /\ R x y.
Proof. induction 1 as [|a b l m H F IH]; intros I; [destruct I|]. destruct I as [->|I]; [exists a; split; [now left|auto]|]. destruct (IH I) as (x & J & Q). exists x. split; [now right|auto]. Qed.
Lemma Forall2_in_l {A B} (R : A -> B -> Prop) l m x : Forall2 R l m -> In x l -> exists y, In y m /\ R x y.
Proof. induction 1 as [|a b l m H F IH]; intros I; [destruct I|]. destruct I as [->|I]; [exists b; split; [now left|auto]|]. destruct (IH I) as (y & J & Q). exists y. split; [now right|auto]. Qed.
Lemma Forall2_nth_r {A B} (R : A -> B -> Prop) l m : Forall2 R l m -> forall i y, nth_error m i = Some y -> exists x, nth_error l i = Some x /\ R x y.
Proof.
  induction 1 as [|a b l m H F IH]; intros [|i] y E; try discriminate; cbn [nth_error] in *.
  - injection E as <-. eauto.
  - eauto.
Qed.

Definition network_spec (K : list ((Z * kp) * (Z * kp))) (ps : list point) : Prop :=
  (forall p, In p ps -> pptype p = TiePoint /\ pignore p = false /\ (2 <= length (pmeasures p))%nat /\
     StronglySorted lt (map mimage (pmeasures p)) /\
     (forall m, In m (pmeasures p) -> mrow_sigma m = mcol_sigma m /\ mignore m = false /\ matched K (keypoint m)) /\
     forall m m', In m (pmeasures p) -> In m' (pmeasures p) -> joined K (keypoint m) (keypoint m')) /\
  (forall i j p q m m', nth_error ps i = Some p -> nth_error ps j = Some q -> In m (pmeasures p) -> In m' (pmeasures q) ->
     keypoint m = keypoint m' -> i = j) /\
  (consistent K -> forall k, matched K k -> exists p m, In p ps /\ In m (pmeasures p) /\ keypoint m = k).

Section Points.
Variable n : nat.
Variable K : list ((Z * kp) * (Z * kp)).
Variable km : kmaps.
Hypothesis KM : km_set n (matched K) km.
Variable pw : pairwise.
Hypothesis PW : forall e, In e pw -> fst (fst e) <> snd (fst e).
Hypothesis LI : forall x y, In (x, y) (links pw) <-> exists l r a b, In ((l, a), (r, b)) K /\ comes_from km l r a b x y.
Hypothesis BK : forall l a r b, In ((l, a), (r, b)) K -> l <> r /\ 0 <= l < Z.of_nat n /\ 0 <= r < Z.of_nat n.

Lemma measure_rel x m : measure_of km x m -> rel km x (keypoint m) /\ mrow_sigma m = mcol_sigma m /\ mignore m = false /\ mimage m = Z.to_nat (fst x).
Proof.
  intros (a & b & s & KK & ->). unfold keypoint. cbn [mrow_sigma mcol_sigma mcol mrow mimage mignore new_measure].
  split; [|auto]. split; cbn [fst snd]; auto. destruct KK. lia.
Qed.

Lemma tracks_points : exists ts, build_tracks pw = ts /\ (ts = [] <-> K = []) /\
  (forall e, In e ts -> snd e <> [] /\ forall x, In x (snd e) -> exists k, is_kp km x k) /\
  forall ps, Forall2 (point_of km) ts ps -> network_spec K ps.
Proof.
  pose proof (build_state_ok pw PW) as OK. unfold build_tracks.
  set (t := fold_left _ _ _) in *. clearbody t. destruct OK as (S1 & S2 & KK & S3 & B & TP & PT & J & MP & TW).
  exists (tracks t). split; auto.
  assert (GI : forall p tr, In (p, tr) (tracks t) -> gett p (tracks t) = Some tr) by (intros; apply in_get; auto; apply Z_order).
  assert (GC : forall p tr, In (p, tr) (tracks t) -> forall c f, In (c, f) tr -> gett c tr = Some f).
  { intros p tr I c f I2. apply in_get; auto; [apply Z_order|]. eapply S3; eauto. }
  assert (FK : forall p tr x, In (p, tr) (tracks t) -> In x tr -> exists k, rel km x k /\ matched K k).
  { intros p tr [c f] I I2. eapply matched_down with (L := links pw); eauto. eapply B. eapply TP; eauto. }
  split; [|split].
  - split.
    + intros E. destruct K as [|[kx ky] K'] eqn:EK; auto. exfalso.
      destruct (matched_up n ((kx, ky) :: K') km KM (links pw) LI BK kx) as (x & _ & M); [exists ky; left; now left|].
      destruct (MP _ M) as (p & G). destruct (B _ _ G) as (BB & _). rewrite E in BB. cbn in BB. lia.
    + intros E. destruct (tracks t) as [|[p tr] ts] eqn:ET; auto. exfalso.
      destruct (TW p tr (GI _ _ (or_introl eq_refl))) as (c & d & f & g & _ & G & _). apply get_in in G; [|apply Z_order].
      destruct (FK p tr (c, f) (or_introl eq_refl) G) as (k & _ & (y & [I|I])); rewrite E in I; destruct I.
  - intros [p tr] I. cbn [snd]. split.
    + destruct (TW p tr (GI _ _ I)) as (c & d & f & g & _ & G & _). intros ->. discriminate.
    + intros x I2. destruct (FK _ _ _ I I2) as (k & (_ & R) & _). eauto.
  - intros ps FP. split; [|split].
    + intros pt IP. destruct (Forall2_in_r _ _ _ _ FP IP) as ([p tr] & I & (EP & FM)). cbn [snd] in FM.
      assert (EM : map mimage (pmeasures pt) = map (fun x => Z.to_nat (fst x)) tr).
      { clear - FM. induction FM as [|x m tr ms H F IH]; [reflexivity|]. cbn [map]. f_equal; auto. now apply measure_rel in H. }
      split; [rewrite EP; reflexivity|]. split; [rewrite EP; reflexivity|]. split; [|split; [|split]].
      * destruct (TW p tr (GI _ _ I)) as (c & d & f & g & NE & G1 & G2). apply get_in in G1; [|apply Z_order]. apply get_in in G2; [|apply Z_order].
        rewrite <- (map_length mimage), EM, map_length.
        destruct tr as [|u [|v tr]]; cbn [length In] in *; [tauto| |lia]. destruct G1 as [->|[]], G2 as [G2|[]]. congruence.
      * rewrite EM. specialize (S3 _ _ (GI _ _ I)).
        assert (NN : forall x, In x tr -> 0 <= fst x) by (intros x I2; destruct (FK _ _ _ I I2) as (k & (_ & (X & _)) & _); auto).
        clear - S3 NN. induction tr as [|[c f] tr IH]; [constructor|]. apply ordered_cons in S3. destruct S3 as (S3 & LT). cbn [map]. constructor.
        -- apply IH; auto. intros; apply NN; now right.
        -- apply Forall_forall. intros y IY. apply in_map_iff in IY. destruct IY as ([d g] & <- & IY). cbn [fst].
           apply (in_map fst) in IY as IY2. apply LT in IY2. apply Z.ltb_lt in IY2. cbn [fst] in IY2.
           pose proof (NN (c, f) (or_introl eq_refl)). cbn [fst] in *. lia.
      * intros m IM. destruct (Forall2_in_r _ _ _ _ FM IM) as (x & IX & R). apply measure_rel in R. destruct R as (R & R1 & R2 & _).
        split; auto. split; auto. destruct (FK _ _ _ I IX) as (k & R' & M). assert (k = keypoint m) by (eapply rel_fun; eauto). now subst.
      * intros m m' IM IM'. destruct (Forall2_in_r _ _ _ _ FM IM) as ([c f] & IX & R). destruct (Forall2_in_r _ _ _ _ FM IM') as ([d g] & IX' & R').
        apply measure_rel in R, R'. destruct R as (R & _), R' as (R' & _).
        assert (JJ : joined (links pw) (c, f) (d, g)) by (eapply J; eapply TP; eauto).
        apply (joined_down K km (links pw) LI) in JJ. destruct JJ as [E|(kx & ky & A & A' & JJ)].
        -- rewrite E in R. assert (EQ : keypoint m = keypoint m') by (eapply rel_fun; eauto). rewrite EQ. apply rst_refl.
        -- assert (kx = keypoint m) by (eapply rel_fun; eauto). assert (ky = keypoint m') by (eapply rel_fun; eauto). now subst.
    + intros i j pt qt m m' EI EJ IM IM' EQ.
      destruct (Forall2_nth_r _ _ _ FP _ _ EI) as ([p tr] & NI & (_ & FM)). destruct (Forall2_nth_r _ _ _ FP _ _ EJ) as ([q tr'] & NJ & (_ & FM')). cbn [snd] in *.
      destruct (Forall2_in_r _ _ _ _ FM IM) as ([c f] & IX & R). destruct (Forall2_in_r _ _ _ _ FM' IM') as ([d g] & IX' & R').
      apply measure_rel in R, R'. destruct R as (R & _), R' as (R' & _). rewrite EQ in R.
      assert (E : (c, f) = (d, g)) by (eapply rel_inj; eauto). injection E as <- <-.
      pose proof (nth_error_In _ _ NI) as I1. pose proof (nth_error_In _ _ NJ) as I2.
      assert (P1 : getp (c, f) (pids t) = Some p) by (eapply TP; eauto). assert (P2 : getp (c, f) (pids t) = Some q) by (eapply TP; eauto).
      assert (p = q) by congruence. subst q.
      apply (map_nth_error fst) in NI, NJ. cbn [fst] in *.
      eapply (proj1 (NoDup_nth_error (map fst (tracks t)))); [apply (ordered_nodup Z.ltb Z_order), S2|eapply nth_error_lt; eauto|congruence].
    + intros CK k M. apply (consistent_down n K km KM (links pw) LI) in CK.
      destruct (matched_up n K km KM (links pw) LI BK k M) as ([c f] & R & ML).
      destruct (MP _ ML) as (p & G). destruct (PT _ _ _ G) as (tr & g & GT & GG).
      assert (g = f). { apply (CK c). eapply J; [eapply TP; eauto|exact G]. }
      subst g. apply get_in in GT; [|apply Z_order]. apply get_in in GG; [|apply Z_order].
      destruct (Forall2_in_l _ _ _ _ FP GT) as (pt & IP & (_ & FM)). cbn [snd] in FM.
      destruct (Forall2_in_l _ _ _ _ FM GG) as (m & IM & R'). apply measure_rel in R'. destruct R' as (R' & _).
      exists pt, m. split; auto. split; auto. eapply rel_fun; eauto.
Qed.
End Points.

Lemma build_ok shuffle (PERM : forall l, Permutation (shuffle l) l) images fs min_matches max_pairwise : proper (length images) fs ->
  exists b net cs, build_control_network shuffle images fs min_matches max_pairwise = Ok (b, net) /\
    Forall2 (taken min_matches max_pairwise) fs cs /\
    (b = true <-> all_matches fs cs <> []) /\ nimages net = images /\ nntype net = ImageToImage /\
    (b = false -> npoints net = []) /\
    network_spec (all_matches fs cs) (npoints net).
Proof.
  intros PR. unfold build_control_network.
  destruct (load_files_ok shuffle PERM min_matches max_pairwise (length images) fs (repeat [] (length images)) [] [] PR)
    as (cs & km & mm & EL & TK & KM & MM).
  - split; [apply repeat_length|]. intros i m E. apply nth_error_In, repeat_spec in E. subst m. split; [constructor|]. intros k.
    split; [intros []|intros (y & [[]|[]])].
  - split; [constructor|]. split; [intros ? ? ? ? []|]. intros l a r b. split; [intros []|intros (p1 & p2 & [] & _)].
  - auto.
  - unfold kmaps, matches in EL. rewrite EL. cbn [bind app] in *. set (K := all_matches fs cs) in *.
    assert (BK : forall l a r b, In ((l, a), (r, b)) K -> l <> r /\ 0 <= l < Z.of_nat (length images) /\ 0 <= r < Z.of_nat (length images)).
    { intros l a r b I. unfold K, all_matches in I. apply in_flat_map in I. destruct I as ([f c] & I & J). apply in_combine_l in I.
      apply in_map_iff in J. destruct J as (m & [= <- _ <- _] & _). cbn [fst]. apply PR in I. tauto. }
    destruct MM as (SM & DM & MK).
    destruct (to_mvg_ok (length images) (matched K) km KM mm []) as (pw & -> & SP & LP & LI).
    + intros l r p1 p2 I. destruct (DM _ _ _ _ I). split; auto. split; auto.
      assert (A : forall a b, In (a, b) (combine p1 p2) -> In ((l, a), (r, b)) K) by (intros; apply MK; eauto).
      split.
      * intros NE. destruct (combine p1 p2) as [|[a b] rest]; [contradiction|]. destruct (BK l a r b); auto. apply A. now left.
      * intros a b IAB. apply A in IAB. split; [exists (r, b)|exists (l, a)]; auto.
    + constructor.
    + intros e [].
    + cbn [bind]. unfold to_cnet. rewrite add_images. cbn [npoints nimages nntype app].
      destruct (tracks_points (length images) K km KM pw) as (ts & -> & EK & WF & SPEC).
      * intros e I E. apply LP in I. lia.
      * intros x y. rewrite LI. split.
        -- intros [[]|(l & r & p1 & p2 & a & b & I & J & C)]. exists l, r, a, b. split; auto. apply MK. eauto.
        -- intros (l & r & a & b & I & C). right. apply MK in I. destruct I as (p1 & p2 & I & J). exists l, r, p1, p2, a, b. auto.
      * exact BK.
      * destruct ts as [|e ts].
        -- exists false, (Net [] images ImageToImage), cs. split; auto. split; auto. split; [|split; [reflexivity|split; [reflexivity|split; [reflexivity|]]]].
           ++ split; [discriminate|]. intros NE. destruct NE. now apply EK.
           ++ apply SPEC. constructor.
        -- destruct (add_tracks_ok km (e :: ts) (Net [] images ImageToImage) WF) as (ps & -> & FP). cbn [bind npoints nimages nntype app].
           eexists true, _, cs. split; [reflexivity|]. split; auto. split; [|split; [reflexivity|split; [reflexivity|split; [discriminate|apply SPEC, FP]]]].
           split; auto. intros _ E. apply EK in E. discriminate.
Qed.
