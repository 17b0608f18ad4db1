From Coq Require Import ZArith List Lia Bool Permutation.
From Verif Require Import Lib.Base Lib.Lists DSet.Spec DSet.Model DSet.Proofs Mst.Model Mst.Spec Mst.Graph.
Import ListNotations.
Local Open Scope Z_scope.

(* ---- arrays ---- *)
Lemma get_ok {A} (l : list A) i d : 0 <= i < Z.of_nat (length l) -> get l i = Ok (nth (Z.to_nat i) l d).
Proof.
  intros H. unfold get. destruct (Z.ltb_spec i 0); [lia|]. destruct (nth_error_ex l (Z.to_nat i)) as (v & E); [lia|].
  rewrite E. f_equal. symmetry. apply nth_error_nth; auto.
Qed.
Lemma set_ok {A} (l : list A) i v : 0 <= i < Z.of_nat (length l) -> set l i v = Ok (upd l (Z.to_nat i) v).
Proof. intros H. unfold set. destruct l as [|a l']; [simpl in H; lia|]. rewrite (get_ok (a :: l') i a) by auto. reflexivity. Qed.

(* ---- range of the node numbers ---- *)
Definition in_range (a b : Z) (e : edge) : Prop := a <= node1 e <= b /\ a <= node2 e <= b.
Lemma min_fold es : forall m, fold_left (fun m e => Z.min (Z.min m (node1 e)) (node2 e)) es m <= m /\
  forall e, In e es -> fold_left (fun m e => Z.min (Z.min m (node1 e)) (node2 e)) es m <= Z.min (node1 e) (node2 e).
Proof.
  induction es as [|a es IH]; intros m; simpl; [split; [lia|intros e []]|].
  destruct (IH (Z.min (Z.min m (node1 a)) (node2 a))) as [A B]. split; [lia|]. intros e [<-|H]; [lia|auto].
Qed.
Lemma max_fold es : forall m, m <= fold_left (fun m e => Z.max (Z.max m (node1 e)) (node2 e)) es m /\
  forall e, In e es -> Z.max (node1 e) (node2 e) <= fold_left (fun m e => Z.max (Z.max m (node1 e)) (node2 e)) es m.
Proof.
  induction es as [|a es IH]; intros m; simpl; [split; [lia|intros e []]|].
  destruct (IH (Z.max (Z.max m (node1 a)) (node2 a))) as [A B]. split; [lia|]. intros e [<-|H]; [lia|auto].
Qed.
Lemma range_ok e0 es e : In e (e0 :: es) -> in_range (min_of e0 es) (max_of e0 es) e.
Proof.
  unfold in_range, min_of, max_of. destruct (min_fold es (Z.min (node1 e0) (node2 e0))) as [A B].
  destruct (max_fold es (Z.max (node1 e0) (node2 e0))) as [C D]. intros [<-|H]; [lia|].
  specialize (B e H). specialize (D e H). lia.
Qed.

(* ---- used nodes ---- *)
Definition uses (e : edge) (x : Z) : Prop := node1 e = x \/ node2 e = x.
Lemma mark_ok mn : forall es u, (forall e, In e es -> in_range mn (mn + Z.of_nat (length u) - 1) e) ->
  exists u', mark mn es u = Ok u' /\ length u' = length u /\
    forall i, (i < length u)%nat -> (nth i u' false = true <-> nth i u false = true \/ exists e, In e es /\ uses e (mn + Z.of_nat i)).
Proof.
  induction es as [|e es IH]; intros u R.
  - exists u. split; auto. split; auto. intros i L. split; [auto|]. intros [H|(e & [] & _)]; auto.
  - destruct (R e (or_introl eq_refl)) as [R1 R2]. cbn [mark]. rewrite set_ok by lia. cbn [bind].
    rewrite set_ok by (rewrite upd_length; lia). cbn [bind].
    set (u2 := upd (upd u (Z.to_nat (node1 e - mn)) true) (Z.to_nat (node2 e - mn)) true).
    assert (L2 : length u2 = length u) by (unfold u2; rewrite !upd_length; auto).
    destruct (IH u2) as (u' & E & L & H). { rewrite L2. intros x Hx. apply R. right; auto. }
    exists u'. split; auto. split; [lia|]. intros i Li. rewrite H by lia.
    assert (N2 : nth i u2 false = true <-> nth i u false = true \/ uses e (mn + Z.of_nat i)).
    { unfold u2, uses. destruct (Nat.eq_dec (Z.to_nat (node2 e - mn)) i) as [E2|N2].
      - subst i. rewrite upd_nth_eq by (rewrite upd_length; lia). split; auto. intros _. right; right. lia.
      - rewrite upd_nth_neq by auto. destruct (Nat.eq_dec (Z.to_nat (node1 e - mn)) i) as [E1|N1].
        + subst i. rewrite upd_nth_eq by lia. split; auto. intros _. right; left. lia.
        + rewrite upd_nth_neq by auto. split; auto. intros [Q|[Q|Q]]; auto; lia. }
    rewrite N2. split.
    + intros [[Q|Q]|(x & Hx & Q)]; auto; right; [exists e|exists x]; simpl; auto.
    + intros [Q|(x & [<-|Hx] & Q)]; auto. right. eauto.
Qed.

(* ---- the set elements ---- *)
Definition singletons (h : heap Z) : Prop := inv h /\ forall a, (a < length h)%nat -> rep h a a.
Lemma elems_ok : forall u k h ds h', elems u k h = (ds, h') -> singletons h ->
  singletons h' /\ (length h <= length h')%nat /\ length ds = length u /\
  (forall i, nth i u false = true -> exists a, nth_error ds i = Some (Some a)) /\
  (forall i a, nth_error ds i = Some (Some a) -> (length h <= a < length h')%nat) /\
  (forall i j a, nth_error ds i = Some (Some a) -> nth_error ds j = Some (Some a) -> i = j).
Proof.
  induction u as [|b u IH]; intros k h ds h' E SG; simpl in E.
  - injection E as <- <-. split; auto. split; auto. split; auto. split; [destruct i; discriminate|].
    split; [destruct i; discriminate|destruct i; discriminate].
  - destruct b.
    + destruct (elems u (k + 1) (h ++ [Node k None 0])) as [l h2] eqn:E2. injection E as <- <-.
      assert (SG' : singletons (h ++ [Node k None 0])).
      { destruct SG as [V R]. destruct (app_inv h k None V) as [V' RN]; [discriminate|]. split; auto.
        intros a La. rewrite app_length in La. simpl in La. destruct (Nat.eq_dec a (length h)) as [->|N]; auto.
        apply app_rep, R. lia. }
      destruct (IH _ _ _ _ E2 SG') as (A & B & C & D & F & G). rewrite app_length in B, F. simpl in B, F.
      split; auto. split; [lia|]. split; [simpl; auto|]. split; [|split].
      * intros [|i] Hi; [exists (length h); auto|apply D; auto].
      * intros [|i] a Hi; [injection Hi as <-; lia|]. apply F in Hi. lia.
      * intros [|i] [|j] a Hi Hj; auto; simpl in Hi, Hj.
        -- injection Hi as <-. apply F in Hj. lia.
        -- injection Hj as <-. apply F in Hi. lia.
        -- f_equal. eapply G; eauto.
    + destruct (elems u (k + 1) h) as [l h2] eqn:E2. injection E as <- <-.
      destruct (IH _ _ _ _ E2 SG) as (A & B & C & D & F & G). split; auto. split; auto. split; [simpl; auto|]. split; [|split].
      * intros [|i] Hi; [discriminate|apply D; auto].
      * intros [|i] a Hi; [discriminate|]. eapply F; eauto.
      * intros [|i] [|j] a Hi Hj; auto; try discriminate. f_equal. eapply G; eauto.
Qed.

(* ---- the loop ---- *)
Fixpoint greedy (U es : list edge) (used : list bool) : Prop :=
  match es, used with
  | [], [] => True
  | e :: es', b :: used' =>
      (b = true <-> ~ joined U (node1 e) (node2 e)) /\ greedy (if b then e :: U else U) es' used'
  | _, _ => False
  end.

Section Loop.
  Variables (mn : Z) (ds : list (option nat)).
  Definition el (x : Z) (a : nat) : Prop := mn <= x /\ nth_error ds (Z.to_nat (x - mn)) = Some (Some a).
  Record kinv (h : heap Z) (U : list edge) : Prop := {
    k_inv : inv h;
    k_el : forall x a, el x a -> (a < length h)%nat;
    k_part : forall x y a b r t, el x a -> el y b -> rep h a r -> rep h b t -> (r = t <-> joined U x y) }.

  Lemma kinv_same h U h' : kinv h U -> inv h' -> same_sets h h' -> kinv h' U.
  Proof.
    intros [V K P] V' SS. split; auto; [rewrite (s_len _ _ SS); auto|].
    intros x y a b r t Hx Hy H1 H2. eapply P; eauto; eapply same_back; eauto.
  Qed.

  Lemma kruskal_ok : forall es h U, kinv h U ->
    (forall e x, In e es -> uses e x -> exists a, el x a) ->
    exists used, kruskal mn ds es h = Ok used /\ greedy U es used.
  Proof.
    induction es as [|e es IH]; intros h U K HE; [exists []; split; simpl; auto|].
    destruct (HE e (node1 e)) as (a & Ha); [left; auto|left; auto|].
    destruct (HE e (node2 e)) as (b & Hb); [left; auto|right; auto|].
    assert (GA : get ds (node1 e - mn) = Ok (Some a)).
    { destruct Ha as [La Ea]. unfold get. destruct (Z.ltb_spec (node1 e - mn) 0); [lia|]. rewrite Ea. auto. }
    assert (GB : get ds (node2 e - mn) = Ok (Some b)).
    { destruct Hb as [Lb Eb]. unfold get. destruct (Z.ltb_spec (node2 e - mn) 0); [lia|]. rewrite Eb. auto. }
    cbn [kruskal]. rewrite GA, GB. cbn [bind].
    destruct (find_ok h a (k_inv _ _ K) (k_el _ _ K _ _ Ha)) as (s1 & h1 & F1 & R1 & V1 & S1). rewrite F1. cbn [bind].
    pose proof (kinv_same _ _ _ K V1 S1) as K1.
    destruct (find_ok h1 b V1 (k_el _ _ K1 _ _ Hb)) as (s2 & h2 & F2 & R2 & V2 & S2). rewrite F2. cbn [bind].
    pose proof (kinv_same _ _ _ K1 V2 S2) as K2.
    assert (R1' : rep h2 a s1) by (apply (s_rep _ _ S2), (s_rep _ _ S1); auto).
    assert (R2' : rep h2 b s2) by (apply (s_rep _ _ S2); auto).
    pose proof (k_part _ _ K2 _ _ _ _ _ _ Ha Hb R1' R2') as PT.
    destruct (Nat.eqb_spec s1 s2) as [EQ|NE].
    - destruct (IH h2 U K2) as (used & E & G); [intros; eapply HE; eauto; right; auto|].
      rewrite E. cbn [bind]. exists (false :: used). split; auto. simpl. split; auto. split; [discriminate|tauto].
    - destruct (combine_total h2 s1 s2) as (r & h3 & C); [eapply rep_self; eauto|eapply rep_self; eauto|].
      rewrite C. cbn [bind]. destruct (combine_spec _ _ _ _ _ V2 C) as (V3 & LN & RR & Q1 & Q2 & J).
      assert (K3 : kinv h3 (e :: U)).
      { split; auto; [rewrite LN; apply (k_el _ _ K2)|]. intros x y c d p q Hx Hy P1 P2.
        destruct (i_all _ V2 c (k_el _ _ K2 _ _ Hx)) as (rx & RX). destruct (i_all _ V2 d (k_el _ _ K2 _ _ Hy)) as (ry & RY).
        rewrite (rep_det _ _ _ _ P1 (J _ _ RX)), (rep_det _ _ _ _ P2 (J _ _ RY)).
        unfold joined. simpl. rewrite linked_cons. fold (joined U x y).
        rewrite <- (k_part _ _ K2 _ _ _ _ _ _ Hx Hy RX RY).
        change (linked (ends U) x (node1 e)) with (joined U x (node1 e)). rewrite <- (k_part _ _ K2 _ _ _ _ _ _ Hx Ha RX R1').
        change (linked (ends U) x (node2 e)) with (joined U x (node2 e)). rewrite <- (k_part _ _ K2 _ _ _ _ _ _ Hx Hb RX R2').
        change (linked (ends U) (node1 e) y) with (joined U (node1 e) y). rewrite <- (k_part _ _ K2 _ _ _ _ _ _ Ha Hy R1' RY).
        change (linked (ends U) (node2 e) y) with (joined U (node2 e) y). rewrite <- (k_part _ _ K2 _ _ _ _ _ _ Hb Hy R2' RY).
        destruct (Nat.eqb_spec rx s1), (Nat.eqb_spec rx s2), (Nat.eqb_spec ry s1), (Nat.eqb_spec ry s2), RR; subst; simpl; lia. }
      destruct (IH h3 (e :: U) K3) as (used & E & G); [intros; eapply HE; eauto; right; auto|].
      rewrite E. cbn [bind]. exists (true :: used). split; auto. simpl. split; auto. split; [tauto|auto].
  Qed.
End Loop.

(* ---- what a greedy choice is ---- *)
Lemma greedy_length es : forall U used, greedy U es used -> length used = length es.
Proof. induction es; destruct used; simpl; intros; try contradiction; auto. f_equal. destruct H as [_ H]. eapply IHes; eauto. Qed.

Lemma chosen_in es : forall used e, In e (chosen es used) -> In e es.
Proof.
  induction es as [|a es IH]; intros [|b used] e; simpl; try tauto.
  destruct b; simpl; intros H; [destruct H as [->|H]|]; auto; right; eapply IH; eauto.
Qed.

Lemma greedy_acyc es : forall U used, greedy U es used -> acyc [] (ends U) -> acyc [] (ends (rev (chosen es used) ++ U)).
Proof.
  induction es as [|e es IH]; intros U [|b used]; simpl; try tauto. intros [B G] AC. destruct b.
  - simpl. rewrite <- app_assoc. simpl. apply IH; auto. simpl. split; auto. rewrite app_nil_r. apply B. auto.
  - apply IH; auto.
Qed.

Lemma ends_app A B : ends (A ++ B) = ends A ++ ends B.
Proof. apply map_app. Qed.
Lemma in_ends A e : In e A -> In (node1 e, node2 e) (ends A).
Proof. intros H. apply (in_map (fun e => (node1 e, node2 e))); auto. Qed.
Lemma joined_incl A B x y : incl A B -> joined A x y -> joined B x y.
Proof. intros I. apply linked_incl. intros p Hp. unfold ends in *. apply in_map_iff in Hp. destruct Hp as (e & <- & He). apply in_map_iff. eauto. Qed.

Lemma greedy_below c es : forall U used, greedy U es used -> by_cost es ->
  forall e, In e es -> cost e <= c -> joined (filter (fun k => cost k <=? c) (chosen es used) ++ U) (node1 e) (node2 e).
Proof.
  induction es as [|a es IH]; intros U [|b used]; simpl; try tauto. intros [B G] BC e He Le.
  inversion BC as [|? ? HB BC']; subst. destruct He as [<-|He].
  - destruct b.
    + simpl. destruct (Z.leb_spec (cost a) c); [|lia]. apply l_edge. left. auto.
    + destruct (linked_dec (ends U) (node1 a) (node2 a)) as [D|D]; [|apply B in D; discriminate].
      eapply joined_incl; [|exact D]. intros x Hx. apply in_or_app; auto.
  - specialize (IH _ _ G BC' e He Le). destruct b; auto. simpl. destruct (Z.leb_spec (cost a) c); [|specialize (HB e He); lia].
    eapply joined_incl; [|exact IH]. intros x. simpl. rewrite !in_app_iff. simpl. tauto.
Qed.

Lemma chosen_asc es : forall used, by_cost es -> asc (map cost (chosen es used)).
Proof.
  induction es as [|a es IH]; intros [|b used] BC; simpl; try constructor. inversion BC as [|? ? HB BC']; subst.
  destruct b; auto. simpl. constructor; auto. intros y Hy. apply in_map_iff in Hy. destruct Hy as (k & <- & Hk).
  apply HB. eapply chosen_in; eauto.
Qed.

Lemma forest_acyc F : forest F -> acyc [] (ends F).
Proof.
  induction F as [|e F IH]; intros H; simpl; auto. split.
  - rewrite app_nil_r. apply (H [] e F eq_refl).
  - apply IH. intros A x B -> D. apply (H (e :: A) x B eq_refl). eapply joined_incl; [|exact D]. intros y Hy. right; auto.
Qed.
Lemma acyc_is_forest F : acyc [] (ends F) -> forest F.
Proof.
  intros AC A e B ->. unfold joined. rewrite ends_app. eapply (acyc_forest _ AC (ends A) (node1 e, node2 e)).
  rewrite ends_app. reflexivity.
Qed.
Lemma acyc_filter_e f F : acyc [] (ends F) -> acyc [] (ends (filter f F)).
Proof.
  induction F as [|e F IH]; simpl; auto. intros [N K]. destruct (f e); auto. simpl. split; auto.
  intros D. apply N. rewrite app_nil_r in *. eapply (joined_incl (filter f F) F); [|exact D]. intros x. rewrite filter_In. tauto.
Qed.

Lemma forest_perm F G : Permutation F G -> forest F -> forest G.
Proof.
  intros P H A e B ->. assert (I : In e F) by (eapply Permutation_in; [symmetry; eauto|apply in_or_app; right; left; auto]).
  apply in_split in I. destruct I as (C & D & ->). intros J. apply (H C e D eq_refl).
  eapply joined_incl; [|exact J]. intros x Hx. eapply Permutation_in; [|exact Hx].
  apply (Permutation_app_inv _ _ _ _ e). symmetry. exact P.
Qed.

(* the edges chosen are a cheapest spanning forest *)
Lemma greedy_optimal es used : greedy [] es used -> by_cost es ->
  spanning_forest (chosen es used) es /\
  forall F, spanning_forest F es -> total (chosen es used) <= total F.
Proof.
  intros G BC. set (K := chosen es used).
  assert (AK : acyc [] (ends (rev K))).
  { pose proof (greedy_acyc es [] used G I) as A. rewrite app_nil_r in A. exact A. }
  assert (FK : forest K). { eapply forest_perm; [symmetry; apply Permutation_rev|]. apply acyc_is_forest; auto. }
  assert (SP : forall e, In e es -> joined K (node1 e) (node2 e)).
  { intros e He. pose proof (greedy_below (cost e) es [] used G BC e He ltac:(lia)) as J. rewrite app_nil_r in J.
    eapply joined_incl; [|exact J]. intros x. rewrite filter_In. tauto. }
  assert (SK : spanning_forest K es).
  { split; [intros x; apply chosen_in|]. split; auto. intros x y. split.
    - apply joined_incl. intros z; apply chosen_in.
    - intros J. eapply linked_sub; [|exact J]. intros p Hp. apply in_map_iff in Hp. destruct Hp as (e & <- & He). apply SP; auto. }
  split; auto. intros F (IF & FF & HF). pose proof (forest_acyc F FF) as AF. pose proof (forest_acyc K FK) as AK'.
  assert (CNT : forall c, Peano.le (length (filter (fun e => cost e <=? c) F)) (length (filter (fun e => cost e <=? c) K))).
  { intros c. rewrite <- (map_length (fun e => (node1 e, node2 e)) (filter _ F)), <- (map_length (fun e => (node1 e, node2 e)) (filter _ K)).
    apply (steinitz _ []); [apply (acyc_filter_e (fun e => cost e <=? c)); auto|]. intros p Hp.
    apply in_map_iff in Hp. destruct Hp as (e & <- & He). apply filter_In in He. destruct He as [He Ce].
    pose proof (greedy_below c es [] used G BC e (IF e He) ltac:(lia)) as J. rewrite app_nil_r in J. rewrite app_nil_r. exact J. }
  assert (LEN : length K = length F).
  { apply Nat.le_antisymm.
    - rewrite <- (map_length (fun e => (node1 e, node2 e)) K), <- (map_length (fun e => (node1 e, node2 e)) F).
      apply (steinitz _ []); auto. intros p Hp. apply in_map_iff in Hp. destruct Hp as (e & <- & He). rewrite app_nil_r.
      apply HF. apply l_edge. apply in_ends. eapply chosen_in; eauto.
    - rewrite <- (map_length (fun e => (node1 e, node2 e)) K), <- (map_length (fun e => (node1 e, node2 e)) F).
      apply (steinitz _ []); auto. intros p Hp. apply in_map_iff in Hp. destruct Hp as (e & <- & He). rewrite app_nil_r. apply SP. auto. }
  unfold total. rewrite (zsum_perm _ _ (isort_perm (map cost F))). apply sum_le.
  - apply chosen_asc; auto.
  - apply isort_asc.
  - rewrite <- (Permutation_length (isort_perm _)), !map_length. auto.
  - intros c. rewrite <- (below_perm c _ _ (isort_perm _)). unfold below, count.
    assert (FM : forall l, length (filter (fun x => x <=? c) (map cost l)) = length (filter (fun e => cost e <=? c) l)).
    { induction l as [|x l IH]; simpl; auto. destruct (cost x <=? c); simpl; auto. }
    rewrite !FM. apply CNT.
Qed.

(* ---- the edge tables ---- *)
Definition touches (x : Z) (e : edge) : bool := (node1 e =? x) || (node2 e =? x).
Lemma tables_ok mn : forall es used T, (forall e, In e (chosen es used) -> in_range mn (mn + Z.of_nat (length T) - 1) e /\ node1 e <> node2 e) ->
  length used = length es ->
  exists T', tables mn es used T = Ok T' /\ length T' = length T /\
    forall i, (i < length T)%nat -> nth i T' [] = nth i T [] ++ filter (touches (mn + Z.of_nat i)) (chosen es used).
Proof.
  induction es as [|e es IH]; intros used T R L; destruct used as [|b used]; try discriminate.
  - exists T. split; auto. split; auto. intros. simpl. rewrite app_nil_r. auto.
  - destruct b; simpl in R.
    + destruct (R e (or_introl eq_refl)) as [[R1 R2] NE]. cbn [tables].
      rewrite (get_ok T (node1 e - mn) []) by lia. cbn [bind]. rewrite set_ok by lia. cbn [bind].
      set (T1 := upd T (Z.to_nat (node1 e - mn)) (nth (Z.to_nat (node1 e - mn)) T [] ++ [e])).
      assert (L1 : length T1 = length T) by apply upd_length.
      rewrite (get_ok T1 (node2 e - mn) []) by lia. cbn [bind]. rewrite set_ok by lia. cbn [bind].
      set (T2 := upd T1 (Z.to_nat (node2 e - mn)) (nth (Z.to_nat (node2 e - mn)) T1 [] ++ [e])).
      assert (L2 : length T2 = length T) by (unfold T2; rewrite upd_length; auto).
      destruct (IH used T2) as (T' & E & LT & H); [intros x Hx; rewrite L2; apply R; right; auto|simpl in L; lia|].
      exists T'. split; auto. split; [lia|]. intros i Li. rewrite H by lia. simpl. unfold T2, T1.
      unfold touches at 2. destruct (Nat.eq_dec (Z.to_nat (node2 e - mn)) i) as [E2|N2].
      * subst i. rewrite upd_nth_eq by (rewrite upd_length; lia). rewrite upd_nth_neq by lia.
        destruct (Z.eqb_spec (node2 e) (mn + Z.of_nat (Z.to_nat (node2 e - mn)))); [|lia]. rewrite orb_true_r. rewrite <- app_assoc. auto.
      * rewrite upd_nth_neq by auto. destruct (Z.eqb_spec (node2 e) (mn + Z.of_nat i)); [lia|]. rewrite orb_false_r.
        destruct (Nat.eq_dec (Z.to_nat (node1 e - mn)) i) as [E1|N1].
        -- subst i. rewrite upd_nth_eq by lia. destruct (Z.eqb_spec (node1 e) (mn + Z.of_nat (Z.to_nat (node1 e - mn)))); [|lia]. rewrite <- app_assoc. auto.
        -- rewrite upd_nth_neq by auto. destruct (Z.eqb_spec (node1 e) (mn + Z.of_nat i)); [lia|]. auto.
    + cbn [tables]. apply IH; auto.
Qed.

(* ---- the constructor ---- *)
Record built (es : list edge) (t : tree) : Prop := {
  b_prims : prims t = es;
  b_greedy : greedy [] es (prim_used t);
  b_node : forall x, min_node t <= x < min_node t + Z.of_nat (length (node_used t)) ->
     (nth (Z.to_nat (x - min_node t)) (node_used t) false = true <-> exists e, In e es /\ uses e x);
  b_range : forall e, In e es -> in_range (min_node t) (min_node t + Z.of_nat (length (node_used t)) - 1) e;
  b_len : length (edges t) = length (node_used t);
  b_edges : forall x, min_node t <= x < min_node t + Z.of_nat (length (node_used t)) ->
     nth (Z.to_nat (x - min_node t)) (edges t) [] = filter (touches x) (chosen es (prim_used t)) }.

Lemma greedy_no_loop es : forall U used, greedy U es used -> forall e, In e (chosen es used) -> node1 e <> node2 e.
Proof.
  induction es as [|a es IH]; intros U [|b used]; simpl; try tauto. intros [B G] e He. destruct b.
  - destruct He as [<-|He]; [|eapply IH; eauto]. intros E. apply B; auto. rewrite E. constructor.
  - eapply IH; eauto.
Qed.

Lemma construct_ok junk es : 0 < junk -> es <> [] -> exists t, construct junk es = Ok t /\ built es t.
Proof.
  intros J NE. unfold construct. destruct (Z.leb_spec junk 0); [lia|]. destruct es as [|e0 es']; [contradiction|].
  set (mn := min_of e0 es'). set (mx := max_of e0 es'). set (es := e0 :: es').
  assert (RG : forall e, In e es -> in_range mn mx e) by (intros; apply range_ok; auto).
  assert (MM : mn <= mx). { destruct (RG e0 (or_introl eq_refl)). lia. }
  set (n := Z.to_nat (mx - mn + 1)). assert (LN : Z.of_nat n = mx - mn + 1) by lia.
  destruct (mark_ok mn es (repeat false n)) as (u & EM & LU & HU).
  { rewrite repeat_length. intros e He. replace (mn + Z.of_nat n - 1) with mx by lia. auto. }
  rewrite EM. cbn [bind]. rewrite repeat_length in *. destruct (elems u mn []) as [ds h] eqn:EE.
  destruct (elems_ok u mn [] ds h EE) as (SG & _ & LD & D1 & D2 & D3).
  { split; [split|]; try (simpl; intros; lia); [intros x m p q E; destruct x; discriminate|intros s m E; destruct s; discriminate]. }
  assert (HU' : forall x, mn <= x < mn + Z.of_nat (length u) -> (nth (Z.to_nat (x - mn)) u false = true <-> exists e, In e es /\ uses e x)).
  { intros x Hx. rewrite HU by lia. replace (mn + Z.of_nat (Z.to_nat (x - mn))) with x by lia.
    split; auto. intros [Q|Q]; auto. rewrite nth_repeat in Q. discriminate. }
  destruct (kruskal_ok mn ds es h []) as (used & EK & G).
  - destruct SG as [V R]. split; auto.
    + intros x a (_ & E). apply D2 in E. lia.
    + intros x y a b r t (Lx & Ex) (Ly & Ey) H1 H2.
      assert (La : (a < length h)%nat) by (apply D2 in Ex; lia). assert (Lb : (b < length h)%nat) by (apply D2 in Ey; lia).
      rewrite (rep_det _ _ _ _ H1 (R a La)), (rep_det _ _ _ _ H2 (R b Lb)). split.
      * intros ->. pose proof (D3 _ _ _ Ex Ey). assert (x = y) by lia. subst. constructor.
      * intros JJ. apply linked_nil in JJ. subst. congruence.
  - intros e x He Ux. destruct (RG e He) as [R1 R2]. assert (Lx : mn <= x <= mx) by (destruct Ux; subst; auto).
    destruct (D1 (Z.to_nat (x - mn))) as (a & Ea); [apply HU'; [lia|eauto]|]. exists a. split; [lia|auto].
  - fold es. rewrite EK. cbn [bind]. pose proof (greedy_length _ _ _ G) as LG.
    destruct (tables_ok mn es used (repeat [] n)) as (T & ET & LT & HT); auto.
    { rewrite repeat_length. intros e He. split; [|eapply greedy_no_loop; eauto].
      replace (mn + Z.of_nat n - 1) with mx by lia. apply RG. eapply chosen_in; eauto. }
    rewrite ET. cbn [bind]. exists (Tree es used mn u T). split; auto. rewrite repeat_length in *. split; cbn [prims prim_used min_node node_used edges]; auto.
    + intros e He. replace (mn + Z.of_nat (length u) - 1) with mx by lia. auto.
    + lia.
    + intros x Hx. rewrite HT by lia. replace (mn + Z.of_nat (Z.to_nat (x - mn))) with x by lia.
      rewrite nth_repeat. reflexivity.
Qed.
