(* The traversal of the tree. *)
From Coq Require Import ZArith List Lia Bool Permutation.
From Verif Require Import Lib.Base Lib.Lists DSet.Spec Mst.Model Mst.Spec Mst.Graph Mst.Proofs.
Import ListNotations.
Local Open Scope Z_scope.

Definition incident (e : edge) (p q : Z) : Prop := (node1 e = p /\ node2 e = q) \/ (node1 e = q /\ node2 e = p).
Definition other (c : edge * Z) : Z := if snd c =? node1 (fst c) then node2 (fst c) else node1 (fst c).
Definition reached (l : list (edge * Z)) : list Z := map other l.

Section W.
  Variable K : list edge.
  Hypothesis NOLOOP : forall e, In e K -> node1 e <> node2 e.

  Inductive calls : list Z -> list Z -> list (edge * Z) -> Prop :=
  | c_nil S V : calls S V []
  | c_cons S V e p l : In e K -> incident e p (other (e, p)) -> In p S -> ~ In (other (e, p)) V ->
      calls (other (e, p) :: S) (other (e, p) :: V) l -> calls S V ((e, p) :: l).

  Lemma calls_mono S V l : calls S V l -> forall S' V', incl S S' -> (forall x, In x V' <-> In x V) -> calls S' V' l.
  Proof.
    induction 1; intros S' V' IS IV; constructor; auto; [rewrite IV; auto|].
    apply IHcalls; [|intros x; simpl; rewrite IV; tauto]. intros x [<-|Hx]; [left; auto|right; auto].
  Qed.
  Lemma calls_app S V l1 : calls S V l1 -> forall l2, calls S (reached l1 ++ V) l2 -> calls S V (l1 ++ l2).
  Proof.
    induction 1; intros l2 H4; simpl in *; auto. constructor; auto. apply IHcalls.
    eapply calls_mono; eauto; [intros x Hx; right; auto|]. intros x. simpl. rewrite !in_app_iff. simpl. tauto.
  Qed.
  Lemma calls_in S V l : calls S V l -> incl (map fst l) K.
  Proof. induction 1; intros x; simpl; [tauto|]. intros [<-|Hx]; auto. Qed.
  Lemma calls_new S V l : calls S V l -> forall x, In x (reached l) -> ~ In x V.
  Proof. induction 1; simpl; intros x Hx; [contradiction|]. destruct Hx as [<-|Hx]; auto. intros HV. apply (IHcalls x Hx). right; auto. Qed.
  Lemma calls_linked S V l r : calls S V l -> forall E, incl (map fst l) E -> (forall s, In s S -> joined E r s) ->
    forall x, In x (reached l) -> joined E r x.
  Proof.
    induction 1; intros E IE HS x Hx; simpl in *; [contradiction|].
    assert (J : joined E r (other (e, p))).
    { eapply l_trans; [apply HS; eauto|]. assert (In e E) by (apply IE; left; auto). apply in_ends in H4.
      destruct H0 as [[A B]|[A B]]; rewrite A, B in H4; [apply l_edge; auto|apply l_sym, l_edge; auto]. }
    destruct Hx as [<-|Hx]; auto. apply IHcalls; auto.
    - intros y Hy. apply IE. right; auto.
    - intros s [<-|Hs]; auto.
  Qed.

  (* every node touched so far is among the visited ones *)
  Lemma calls_before S V l : calls S V l -> incl S V -> forall A c B, l = A ++ c :: B ->
    incident (fst c) (snd c) (other c) /\ ~ In (other c) V /\ (In (snd c) S \/ In (snd c) (reached A)) /\
    (forall x, In x (reached A) \/ In x S -> x <> other c) /\
    (forall d x, In d A -> uses (fst d) x -> x <> other c).
  Proof.
    induction 1; intros IS A c B E; [destruct A; discriminate|]. destruct A as [|d A].
    - injection E as <- <-. cbn [fst snd]. split; auto. split; auto. split; auto. split.
      + intros x [[]|Hx] ->. apply H2. apply IS; auto.
      + intros d x [].
    - injection E as <- E. destruct (IHcalls ltac:(intros x [<-|Hx]; [left|right]; auto) A c B E) as (I1 & I2 & I3 & I4 & I5).
      split; auto. split; [intros Hc; apply I2; right; auto|]. split; [|split].
      + destruct I3 as [[Q|Q]|Q]; auto; right; [left|right]; auto.
      + intros x Hx. apply I4. simpl in Hx. simpl. tauto.
      + intros d x [<-|Hd] U; [|eapply I5; eauto]. apply I4. right.
        destruct H0 as [[A1 A2]|[A1 A2]], U as [U|U]; cbn [fst] in U; rewrite ?A1, ?A2 in U; subst x; simpl; auto.
  Qed.

  Variable t : tree.
  Variable used : Z -> Prop.
  Let n := Z.of_nat (length (node_used t)).
  Let inr (x : Z) := min_node t <= x < min_node t + n.
  Hypothesis HU : forall x, inr x -> (nth (Z.to_nat (x - min_node t)) (node_used t) false = true <-> used x).
  Hypothesis HUR : forall x, used x -> inr x.
  Hypothesis HL : length (edges t) = length (node_used t).
  Hypothesis HE : forall x, inr x -> nth (Z.to_nat (x - min_node t)) (edges t) [] = filter (touches x) K.
  Hypothesis HK : forall e x, In e K -> uses e x -> used x.

  (* the list V names the nodes whose flag is set *)
  Definition flags (v : list bool) (V : list Z) : Prop :=
    length v = length (node_used t) /\ forall x, In x V <-> inr x /\ nth (Z.to_nat (x - min_node t)) v false = true.
  Definition closed (V : list Z) (x : Z) : Prop := forall e z, In e K -> incident e x z -> In z V.
  Definition unseen (v : list bool) : nat := count negb v.

  Lemma unseen_upd v : forall i, nth i v true = false -> S (unseen (upd v i true)) = unseen v.
  Proof.
    unfold unseen, count. induction v as [|b v IH]; intros [|i] H; simpl in *; try discriminate.
    - subst. reflexivity.
    - destruct b; simpl; [apply IH; auto|f_equal; apply IH; auto].
  Qed.
  Lemma unseen_le v : forall w, length v = length w -> (forall i, nth i v false = true -> nth i w false = true) -> (unseen w <= unseen v)%nat.
  Proof.
    unfold unseen, count. induction v as [|b v IH]; destruct w as [|c w]; intros L H; try discriminate; auto.
    simpl. assert (IH' := IH w ltac:(simpl in L; lia) (fun i => H (S i))). pose proof (H 0%nat) as H0. simpl in H0.
    destruct b, c; simpl; try lia.
  Qed.
  Lemma flags_unseen v V w W : flags v V -> flags w W -> incl V W -> (unseen w <= unseen v)%nat.
  Proof.
    intros [L1 H1] [L2 H2] I. apply unseen_le; [lia|]. intros i Hi.
    assert (Li : (i < length v)%nat). { destruct (le_lt_dec (length v) i); auto. rewrite nth_overflow in Hi by auto. discriminate. }
    assert (Q : In (min_node t + Z.of_nat i) V).
    { apply H1. unfold inr, n. rewrite <- L1. split; [lia|]. replace (Z.to_nat (min_node t + Z.of_nat i - min_node t)) with i by lia. auto. }
    apply I, H2 in Q. destruct Q as [_ Q]. replace (Z.to_nat (min_node t + Z.of_nat i - min_node t)) with i in Q by lia. auto.
  Qed.
  Lemma flags_set v V x : flags v V -> inr x -> flags (upd v (Z.to_nat (x - min_node t)) true) (x :: V).
  Proof.
    intros [L H] R. split; [rewrite upd_length; auto|]. intros y. simpl. rewrite H. unfold inr, n in *.
    destruct (Z.eq_dec x y) as [->|N].
    - rewrite upd_nth_eq by lia. tauto.
    - split.
      + intros [Q|[Q1 Q2]]; [contradiction|]. split; auto. rewrite upd_nth_neq by lia. auto.
      + intros [Q1 Q2]. rewrite upd_nth_neq in Q2 by lia. auto.
  Qed.
  Lemma flags_ext v V W : flags v V -> (forall x, In x V <-> In x W) -> flags v W.
  Proof. intros [L H] E. split; auto. intros x. rewrite <- E. auto. Qed.
  Lemma flags_get v V x : flags v V -> inr x -> exists b, get v (x - min_node t) = Ok b /\ (b = true <-> In x V).
  Proof.
    intros [L H] R. exists (nth (Z.to_nat (x - min_node t)) v false). split; [apply get_ok; unfold inr, n in R; lia|].
    rewrite H. tauto.
  Qed.

  Definition walk_post (x : Z) (V : list Z) (r : list bool * list (edge * Z)) : Prop :=
    calls [x] (x :: V) (snd r) /\ flags (fst r) (x :: reached (snd r) ++ V) /\
    forall y, In y (x :: reached (snd r)) -> closed (x :: reached (snd r) ++ V) y.
  Definition go_post (x : Z) (es : list edge) (V : list Z) (r : list bool * list (edge * Z)) : Prop :=
    calls [x] V (snd r) /\ flags (fst r) (reached (snd r) ++ V) /\
    (forall y, In y (reached (snd r)) -> closed (reached (snd r) ++ V) y) /\
    (forall e z, In e es -> incident e x z -> In z (reached (snd r) ++ V)).

  Lemma incident_other e p z : node1 e <> node2 e -> incident e p z -> other (e, p) = z.
  Proof. unfold incident, other. simpl. intros N [[A B]|[A B]]; subst; [rewrite Z.eqb_refl; auto|]. destruct (Z.eqb_spec (node2 e) (node1 e)); congruence. Qed.
  Lemma touches_incident x e : touches x e = true -> incident e x (other (e, x)).
  Proof.
    unfold touches, incident, other. simpl. intros H. apply orb_true_iff in H. destruct (Z.eqb_spec x (node1 e)) as [->|N]; auto.
    destruct H as [H|H]; apply Z.eqb_eq in H; subst; [contradiction|auto].
  Qed.

  Lemma walk_ok : forall f x v V, flags v V -> used x -> ~ In x V -> (unseen v < f)%nat ->
    exists r, walk f t x v = Ok r /\ walk_post x V r.
  Proof.
    induction f as [|f IH]; intros x v V FL UX NX FU; [lia|].
    pose proof (HUR x UX) as RX. pose proof FL as [LV HV].
    cbn [walk]. destruct ((x - min_node t <? 0) || (Z.of_nat (length (node_used t)) <=? x - min_node t)) eqn:OUT.
    { exfalso. apply orb_true_iff in OUT. unfold inr, n in RX. destruct OUT as [Q|Q]; [apply Z.ltb_lt in Q|apply Z.leb_le in Q]; lia. }
    rewrite (get_ok (node_used t) _ false) by (unfold inr, n in RX; lia). cbn [bind].
    rewrite (proj2 (HU x RX) UX). cbn [negb].
    destruct (flags_get v V x FL RX) as (b & GB & BB). rewrite GB. cbn [bind]. destruct b; [exfalso; apply NX, BB; auto|].
    rewrite set_ok by (unfold inr, n in RX; lia). cbn [bind].
    rewrite (get_ok (edges t) _ []) by (unfold inr, n in RX; lia). cbn [bind]. rewrite HE by auto.
    set (v1 := upd v (Z.to_nat (x - min_node t)) true). pose proof (flags_set v V x FL RX) as FL1. fold v1 in FL1.
    assert (FU1 : (unseen v1 < f)%nat).
    { assert (Q : nth (Z.to_nat (x - min_node t)) v true = false).
      { rewrite (nth_indep v true false) by (unfold inr, n in RX; lia).
        destruct (nth (Z.to_nat (x - min_node t)) v false) eqn:Q; auto. exfalso. apply NX. apply HV. auto. }
      pose proof (unseen_upd v _ Q). unfold v1. lia. }
    match goal with |- exists r, ?G (filter (touches x) K) v1 = Ok r /\ _ => set (go := G) end.
    assert (GO : forall es, (forall e, In e es -> In e K /\ touches x e = true) -> forall w W, flags w W -> In x W ->
       (unseen w < f)%nat -> exists r, go es w = Ok r /\ go_post x es W r).
    { induction es as [|e es IHe]; intros HI w W FW XW FUW.
      - exists (w, []). split; auto. split; [constructor|]. split; auto. split; [intros y []|intros e z []].
      - destruct (HI e (or_introl eq_refl)) as [EK TX]. pose proof (touches_incident x e TX) as INC.
        set (q := other (e, x)) in *.
        assert (UQ : used q). { apply (HK e); auto. unfold uses. destruct INC as [[? ?]|[? ?]]; auto. }
        destruct (flags_get w W q FW (HUR q UQ)) as (b & GQ & BQ).
        unfold go; cbn [fst snd]; fold go.
        change (if x =? node1 e then node2 e else node1 e) with q. rewrite GQ. cbn [bind]. destruct b.
        + destruct (IHe (fun a Ha => HI a (or_intror Ha)) w W FW XW FUW) as (r & ER & C1 & C2 & C3 & C4).
          exists r. split; auto. split; auto. split; auto. split; auto.
          intros a z [<-|Ha] IZ; [|eapply C4; eauto]. rewrite <- (incident_other e x z (NOLOOP e EK) IZ). fold q.
          apply in_or_app. right. apply BQ; auto.
        + assert (NQ : ~ In q W) by (intros Q; apply BQ in Q; discriminate).
          destruct (IH q w W FW UQ NQ FUW) as ((w1, l1) & E1 & D1 & D2 & D3). cbn [fst snd] in *.
          rewrite E1. cbn [bind].
          assert (FUW1 : (unseen w1 < f)%nat).
          { pose proof (flags_unseen w W w1 _ FW D2 ltac:(intros y Hy; right; apply in_or_app; auto)). lia. }
          destruct (IHe (fun a Ha => HI a (or_intror Ha)) w1 (q :: reached l1 ++ W) D2 ltac:(right; apply in_or_app; auto) FUW1)
            as ((w2, l2) & E2 & C1 & C2 & C3 & C4). cbn [fst snd] in *. rewrite E2. cbn [bind].
          exists (w2, (e, x) :: l1 ++ l2). split; auto.
          assert (RE : forall y, In y (reached ((e, x) :: l1 ++ l2) ++ W) <-> In y (reached l2 ++ q :: reached l1 ++ W)).
          { intros y. unfold reached. simpl. rewrite map_app, !in_app_iff. simpl. rewrite !in_app_iff. fold q. tauto. }
          split; [|split; [|split]]; cbn [fst snd].
          * apply c_cons; auto; [left; auto|]. fold q. apply calls_app; [eapply calls_mono; [exact D1| |reflexivity]; intros y [<-|[]]; left; auto|].
            eapply calls_mono; [exact C1| |]; [intros y [<-|[]]; right; left; auto|]. intros y. rewrite !in_app_iff. simpl. rewrite in_app_iff. tauto.
          * eapply flags_ext; [exact C2|]. intros y. symmetry. apply RE.
          * intros y Hy a z Ha IZ. apply RE. unfold reached in Hy. simpl in Hy. rewrite map_app, in_app_iff in Hy. fold q in Hy.
            destruct Hy as [Hy|[Hy|Hy]].
            -- apply in_or_app. right. eapply (D3 y); eauto. left; auto.
            -- apply in_or_app. right. eapply (D3 y); eauto. right; auto.
            -- eapply C3; eauto.
          * intros a z [<-|Ha] IZ; apply RE.
            -- rewrite <- (incident_other e x z (NOLOOP e EK) IZ). fold q. apply in_or_app. right. left. auto.
            -- eapply C4; eauto. }
    destruct (GO (filter (touches x) K)) with (w := v1) (W := x :: V) as ((v', l) & E & C1 & C2 & C3 & C4); auto.
    { intros e He. apply filter_In in He. auto. } { left; auto. }
    rewrite E. exists (v', l). split; auto. cbn [fst snd] in *. split; auto.
    assert (RE : forall y, In y (x :: reached l ++ V) <-> In y (reached l ++ x :: V)) by (intros y; simpl; rewrite !in_app_iff; simpl; tauto).
    split; cbn [fst snd]; [eapply flags_ext; [exact C2|]; intros y; symmetry; apply RE|].
    intros y Hy a z Ha IZ. apply RE. destruct Hy as [<-|Hy].
    - apply (C4 a z); auto. apply filter_In. split; auto. unfold touches. destruct IZ as [[-> _]|[_ ->]]; rewrite Z.eqb_refl, ?orb_true_r; auto.
    - eapply C3; eauto.
  Qed.

  (* several trees one after the other *)
  Inductive trees : list Z -> list (edge * Z) -> list Z -> list Z -> Prop :=
  | t_nil V : trees V [] [] V
  | t_cons V r l1 l2 rs V2 : ~ In r V -> (forall y, In y V -> closed V y) -> calls [r] (r :: V) l1 ->
      (forall y, In y (r :: reached l1) -> closed (r :: reached l1 ++ V) y) ->
      trees (r :: reached l1 ++ V) l2 rs V2 -> trees V (l1 ++ l2) (r :: rs) V2.

  Lemma starts_ok f : (length (node_used t) < f)%nat -> forall is v V, flags v V -> (forall y, In y V -> closed V y) ->
    (forall i, In i is -> 0 <= i < n) ->
    exists v' l rs V', starts f t is v = Ok (v', l) /\ flags v' V' /\ trees V l rs V' /\ incl V V' /\
      (forall i, In i is -> used (i + min_node t) -> In (i + min_node t) V') /\
      (forall i rest, is = i :: rest -> used (i + min_node t) -> ~ In (i + min_node t) V ->
         exists rs', rs = (i + min_node t) :: rs').
  Proof.
    intros FU. induction is as [|i is IHi]; intros v V FL CL RI.
    - exists v, [], [], V. split; auto. split; auto. split; [constructor|]. split; [apply incl_refl|]. split; [intros i []|intros i rest [=]].
    - assert (RX : inr (i + min_node t)) by (unfold inr; specialize (RI i (or_introl eq_refl)); lia).
      pose proof (flags_get v V _ FL RX) as (b & GB & BB). replace (i + min_node t - min_node t) with i in GB by lia.
      cbn [starts]. rewrite (get_ok (node_used t) i false) by (apply (RI i); left; auto). cbn [bind]. rewrite GB. cbn [bind].
      pose proof (HU _ RX) as HX. replace (i + min_node t - min_node t) with i in HX by lia.
      destruct (nth (Z.to_nat i) (node_used t) false) eqn:EU; destruct b; cbn [andb negb].
      + destruct (IHi v V FL CL (fun j Hj => RI j (or_intror Hj))) as (v' & l & rs & V' & E & F' & T' & I' & S' & _).
        exists v', l, rs, V'. split; auto. split; auto. split; auto. split; auto. split.
        * intros j [<-|Hj] Uj; auto. apply I', BB. auto.
        * intros j rest [= <- <-] Uj Nj. exfalso. apply Nj, BB. auto.
      + assert (NX : ~ In (i + min_node t) V) by (intros Q; apply BB in Q; discriminate).
        destruct (walk_ok f (i + min_node t) v V FL (proj1 HX eq_refl) NX) as ((v1, l1) & E1 & D1 & D2 & D3).
        { eapply Nat.le_lt_trans; [|exact FU]. destruct FL as [LV _]. unfold unseen. rewrite <- LV. apply count_le. }
        cbn [fst snd] in *. rewrite E1. cbn [bind].
        destruct (IHi v1 ((i + min_node t) :: reached l1 ++ V) D2) as (v' & l & rs & V' & E & F' & T' & I' & S' & _).
        { intros y [Hy|Hy]; [apply D3; left; auto|]. apply in_app_or in Hy. destruct Hy as [Hy|Hy]; [apply D3; right; auto|].
          intros e z He IZ. right. apply in_or_app. right. eapply CL; eauto. }
        { intros j Hj. apply RI. right; auto. }
        rewrite E. cbn [bind]. exists v', (l1 ++ l), ((i + min_node t) :: rs), V'. split; auto. split; auto. split; [eapply t_cons; eauto|]. split; [|split].
        * intros y Hy. apply I'. right. apply in_or_app; auto.
        * intros j [<-|Hj] Uj; auto. apply I'. left; auto.
        * intros j rest [= <- <-] _ _. eauto.
      + destruct (IHi v V FL CL (fun j Hj => RI j (or_intror Hj))) as (v' & l & rs & V' & E & F' & T' & I' & S' & _).
        exists v', l, rs, V'. split; auto. split; auto. split; auto. split; auto. split.
        * intros j [<-|Hj] Uj; auto. apply I', BB. auto.
        * intros j rest [= <- <-] Uj Nj. exfalso. apply Nj, BB. auto.
      + destruct (IHi v V FL CL (fun j Hj => RI j (or_intror Hj))) as (v' & l & rs & V' & E & F' & T' & I' & S' & _).
        exists v', l, rs, V'. split; auto. split; auto. split; auto. split; auto. split.
        * intros j [<-|Hj] Uj; auto. apply HX in Uj. discriminate.
        * intros j rest [= <- <-] Uj Nj. apply HX in Uj. discriminate.
  Qed.

  Lemma trees_in V l rs V' : trees V l rs V' -> incl (map fst l) K.
  Proof.
    induction 1; [intros x []|]. rewrite map_app. apply incl_app; auto. eapply calls_in; eauto.
  Qed.
  Lemma trees_incl V l rs V' : trees V l rs V' -> incl V V'.
  Proof. induction 1; [apply incl_refl|]. intros y Hy. apply IHtrees. right. apply in_or_app; auto. Qed.
  Lemma closed_joined V : (forall y, In y V -> closed V y) -> forall x y, joined K x y -> (In x V <-> In y V).
  Proof.
    intros CL x y J. induction J as [|a b I|a b J IH|a b c J1 IH1 J2 IH2]; try tauto.
    apply in_map_iff in I. destruct I as (e & E & He). injection E as <- <-.
    split; intros H; eapply (CL _ H e); eauto; unfold incident; auto.
  Qed.
  Lemma trees_closed V l rs V' : trees V l rs V' -> (forall y, In y V -> closed V y) -> forall y, In y V' -> closed V' y.
  Proof.
    induction 1; auto. intros _. apply IHtrees. intros y [Hy|Hy]; [apply H2; left; auto|]. apply in_app_or in Hy.
    destruct Hy as [Hy|Hy]; [apply H2; right; auto|]. intros e z He IZ. right. apply in_or_app. right. eapply H0; eauto.
  Qed.

  Lemma incident_sym e x z : incident e x z -> incident e z x.
  Proof. unfold incident. tauto. Qed.
  Lemma trees_edge V l rs V' : trees V l rs V' -> forall e y z, In e K -> incident e y z -> In y V' -> ~ In y V ->
    joined (map fst l) y z.
  Proof.
    induction 1; intros e y z He IZ Hy Ny; [contradiction|].
    destruct (in_dec Z.eq_dec y (r :: reached l1)) as [T|NT].
    - assert (Nz : ~ In z V).
      { intros Hz. apply Ny. eapply (H0 z Hz e); eauto. apply incident_sym; auto. }
      assert (Tz : In z (r :: reached l1)).
      { pose proof (H2 y T e z He IZ) as Q. destruct Q as [Q|Q]; [left; auto|]. apply in_app_or in Q. destruct Q; [right; auto|contradiction]. }
      assert (J : forall x, In x (r :: reached l1) -> joined (map fst l1) r x).
      { intros x [<-|Hx]; [constructor|]. eapply calls_linked; eauto; [apply incl_refl|]. intros s [<-|[]]. constructor. }
      eapply (joined_incl (map fst l1)); [rewrite map_app; apply incl_appl, incl_refl|].
      eapply l_trans; [apply l_sym, J; auto|apply J; auto].
    - eapply (joined_incl (map fst l2)); [rewrite map_app; apply incl_appr, incl_refl|]. eapply IHtrees; eauto.
      intros Q. destruct Q as [Q|Q]; [apply NT; left; auto|]. apply in_app_or in Q. destruct Q; [apply NT; right; auto|contradiction].
  Qed.

  (* nodes touched by calls of a tree are its root and the nodes reached *)
  Lemma calls_uses S V l : calls S V l -> forall d x, In d l -> uses (fst d) x -> In x S \/ In x (reached l).
  Proof.
    induction 1; intros d x Hd U; [contradiction|]. destruct Hd as [<-|Hd].
    - simpl. destruct H0 as [[A B]|[A B]], U as [U|U]; cbn [fst] in U; rewrite ?A, ?B in U; subst; auto.
    - destruct (IHcalls d x Hd U) as [[Q|Q]|Q]; auto; right; [left|right]; auto.
  Qed.
  Lemma reached_uses S V l : calls S V l -> forall x, In x (reached l) -> exists d, In d l /\ uses (fst d) x.
  Proof.
    induction 1; intros x Hx; [contradiction|]. destruct Hx as [<-|Hx].
    - exists (e, p). split; [left; auto|]. unfold uses. cbn [fst]. destruct H0 as [[A B]|[A B]]; auto.
    - destruct (IHcalls x Hx) as (d & Hd & U). exists d. split; [right; auto|auto].
  Qed.
  Lemma first_call r V c l : calls [r] V (c :: l) -> uses (fst c) r.
  Proof. intros H. inversion H as [|? ? e p ? IK INC IP NQ CC]; subst. destruct IP as [<-|[]]. unfold uses. destruct INC as [[A B]|[A B]]; auto. Qed.
  Lemma calls_prefix S V l : calls S V l -> forall A B, l = A ++ B -> calls S V A.
  Proof.
    induction 1; intros A B E; destruct A as [|a A]; try discriminate; try constructor. injection E as <- E. constructor; auto. eapply IHcalls; eauto.
  Qed.

  Definition step_ok (A : list (edge * Z)) (c : edge * Z) : Prop :=
    incident (fst c) (snd c) (other c) /\ (forall d, In d A -> ~ uses (fst d) (other c)) /\
    ((exists d, In d A /\ uses (fst d) (snd c)) \/ (forall d x, In d A -> uses (fst d) x -> ~ joined K (snd c) x)).

  Lemma app_split {X} (l1 l2 A B : list X) c : l1 ++ l2 = A ++ c :: B ->
    (exists B1, l1 = A ++ c :: B1) \/ (exists A2, A = l1 ++ A2 /\ l2 = A2 ++ c :: B).
  Proof.
    revert A. induction l1 as [|x l1 IH]; intros A E; [right; exists A; auto|].
    destruct A as [|a A]; [injection E as <- E; left; exists l1; auto|]. injection E as <- E.
    destruct (IH A E) as [(B1 & ->)|(A2 & -> & ->)]; [left; exists B1; auto|right; exists A2; auto].
  Qed.

  Lemma trees_steps V l rs V' : trees V l rs V' -> forall P, (forall d x, In d P -> uses (fst d) x -> In x V) ->
    forall A c B, l = A ++ c :: B -> step_ok (P ++ A) c /\ ~ In (snd c) V.
  Proof.
    induction 1; intros P HP A c B E; [destruct A; discriminate|].
    destruct (app_split _ _ _ _ _ E) as [(B1 & E1)|(A2 & -> & E2)].
    - destruct (calls_before [r] (r :: V) l1 H1 ltac:(intros x [<-|[]]; left; auto) A c B1 E1) as (I1 & I2 & I3 & I4 & I5).
      assert (NV : ~ In (snd c) V).
      { destruct I3 as [[<-|[]]|I3]; auto. intros Q.
        apply (calls_new _ _ _ H1 (snd c)); [rewrite E1; unfold reached; rewrite map_app; apply in_or_app; auto|right; auto]. }
      split; auto. split; auto. split.
      + intros d Hd U. apply in_app_or in Hd. destruct Hd as [Hd|Hd]; [|apply (I5 d _ Hd U); auto]. apply I2. right. eapply HP; eauto.
      + destruct I3 as [[Er|[]]|I3].
        * destruct A as [|a A].
          -- right. intros d x Hd U J. rewrite app_nil_r in Hd. apply NV. apply (proj2 (closed_joined V H0 _ _ J)). eapply HP; eauto.
          -- left. exists a. split; [apply in_or_app; right; left; auto|]. rewrite <- Er. eapply first_call. rewrite E1 in H1. exact H1.
        * left. destruct (reached_uses _ _ _ (calls_prefix _ _ _ H1 _ _ E1) _ I3) as (d & Hd & U). exists d. split; auto. apply in_or_app; auto.
    - destruct (IHtrees (P ++ l1)) with (A := A2) (c := c) (B := B) as [S1 S2]; auto.
      + intros d x Hd U. apply in_app_or in Hd. destruct Hd as [Hd|Hd]; [right; apply in_or_app; right; eapply HP; eauto|].
        destruct (calls_uses _ _ _ H1 d x Hd U) as [[<-|[]]|Q]; [left; auto|right; apply in_or_app; auto].
      + rewrite app_assoc. split; auto. intros Q. apply S2. right. apply in_or_app; auto.
  Qed.

  Lemma trees_nodup V l rs V' : trees V l rs V' -> forall P : list (edge * Z), (forall d x, In d P -> uses (fst d) x -> In x V) -> NoDup (map fst l).
  Proof.
    intros T P HP. assert (H : forall A c B, l = A ++ c :: B -> ~ In (fst c) (map fst A)).
    { intros A c B E Q. destruct (trees_steps _ _ _ _ T P HP A c B E) as [(I1 & I2 & _) _].
      apply in_map_iff in Q. destruct Q as (d & Ed & Hd). apply (I2 d); [apply in_or_app; auto|]. rewrite Ed.
      unfold uses. destruct I1 as [[? ?]|[? ?]]; auto. }
    clear -H. induction l as [|c l IH] using rev_ind; [constructor|].
    rewrite map_app. simpl. apply Permutation_NoDup with (fst c :: map fst l); [apply Permutation_cons_append|]. constructor.
    - apply (H l c []). reflexivity.
    - apply IH. intros A d B E. apply (H A d (B ++ [c])). rewrite E, <- app_assoc. reflexivity.
  Qed.

  (* the first tree grows from its root *)
  Lemma trees_root V l r rs V' : trees V l (r :: rs) V' -> forall A c B, l = A ++ c :: B -> joined K r (snd c) ->
    snd c = r \/ exists d, In d A /\ uses (fst d) (snd c).
  Proof.
    intros T A c B E J. inversion T as [|? ? l1 l2 ? ? N0 CL CA CT TR EV EL]; subst.
    destruct (app_split _ _ _ _ _ EL) as [(B1 & E1)|(A2 & -> & E2)].
    - destruct (calls_before [r] (r :: V) l1 CA ltac:(intros x [<-|[]]; left; auto) A c B1 E1) as (I1 & I2 & I3 & I4 & I5).
      destruct I3 as [[Er|[]]|I3]; auto. right. eapply reached_uses; eauto. eapply calls_prefix; eauto.
    - exfalso. destruct (trees_steps _ _ _ _ TR []) with (A := A2) (c := c) (B := B) as [_ Q]; auto; [intros d x []|].
      apply Q. rewrite <- (closed_joined (r :: reached l1 ++ V)) with (x := r); auto; [left; auto|].
      intros y [Hy|Hy]; [apply CT; left; auto|]. apply in_app_or in Hy. destruct Hy as [Hy|Hy]; [apply CT; right; auto|].
      intros e z He IZ. right. apply in_or_app. right. eapply CL; eauto.
  Qed.
End W.

Lemma seek_spec u : forall i, (i <= seek u i < i + Z.of_nat (length u) /\ nth (Z.to_nat (seek u i - i)) u false = true) \/
  (seek u i = i + Z.of_nat (length u) /\ forall b, In b u -> b = false).
Proof.
  induction u as [|b u IH]; intros i; simpl seek; simpl length; [right; split; [lia|intros b []]|].
  destruct b; [left; split; [lia|]; rewrite Z.sub_diag; auto|].
  destruct (IH (i + 1)) as [[A B]|[A B]]; [left|right].
  - split; [lia|]. replace (Z.to_nat (seek u (i + 1) - i)) with (S (Z.to_nat (seek u (i + 1) - (i + 1)))) by lia. auto.
  - split; [lia|]. intros b [<-|Hb]; auto.
Qed.
