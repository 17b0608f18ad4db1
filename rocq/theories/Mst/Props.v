(* C21: the edges selected are a minimum spanning forest, and the traversal
   visits each of them once, away from the start node. *)
From Coq Require Import ZArith List Lia Bool Permutation.
From Verif Require Import Lib.Base Lib.Lists DSet.Spec Mst.Model Mst.Spec Mst.Graph Mst.Proofs Mst.Walk.
Import ListNotations.
Local Open Scope Z_scope.

(* what the tree object uses *)
Definition tree_edges (t : tree) : list edge := chosen (prims t) (prim_used t).

(* For every order in which qsort may leave the edges: the constructor
   succeeds (if the uninitialised member it tests is positive), and its edges
   form a spanning forest that no spanning forest undercuts. *)
Theorem mst_minimal junk es sorted :
  es <> [] -> 0 < junk -> Permutation es sorted -> by_cost sorted ->
  exists t, construct junk sorted = Ok t /\ spanning_forest (tree_edges t) es /\
    forall F, spanning_forest F es -> total (tree_edges t) <= total F.
Proof.
  intros NE J P BC. assert (NS : sorted <> []) by (intros ->; apply NE, Permutation_nil, Permutation_sym; auto).
  destruct (construct_ok junk sorted J NS) as (t & E & B). exists t. split; auto.
  unfold tree_edges. rewrite (b_prims _ _ B).
  destruct (greedy_optimal sorted (prim_used t) (b_greedy _ _ B) BC) as [(S1 & S2 & S3) OPT].
  assert (IN : forall a b, Permutation a b -> forall x y, joined a x y -> joined b x y).
  { intros a b Pab x y. apply joined_incl. intros z. apply Permutation_in. auto. }
  assert (TR : forall F a b, Permutation a b -> spanning_forest F a -> spanning_forest F b).
  { intros F a b Pab (A1 & A2 & A3). split; [intros z Hz; eapply Permutation_in; eauto|]. split; auto.
    intros x y. rewrite A3. split; apply IN; auto. apply Permutation_sym; auto. }
  split; [eapply TR; [apply Permutation_sym; exact P|split; auto]|].
  intros F HF. apply OPT. eapply TR; [exact P|auto].
Qed.

(* The uninitialised member: the same call may also throw. *)
Theorem mst_constructor_refuted :
  exists junk es, es <> [] /\ by_cost es /\ construct junk es = Throw ArgumentErr.
Proof.
  exists 0, [Edge 1 2 5]. split; [discriminate|]. split; [|reflexivity].
  repeat constructor; intros x [].
Qed.

(* apply() from any start node calls the functor for every tree edge exactly
   once.  Each call names an end point of the edge; the other end point has not
   been touched before; the named end point has been touched before or nothing
   joined to it has.  If the start node occurs in the graph, its component is
   walked outwards from it. *)
Theorem mst_apply junk es t start :
  construct junk es = Ok t ->
  exists l, apply t start = Ok l /\
    Permutation (map fst l) (tree_edges t) /\
    (forall A e p B, l = A ++ (e, p) :: B ->
       exists q, ((node1 e = p /\ node2 e = q) \/ (node1 e = q /\ node2 e = p)) /\
         (forall d, In d (map fst A) -> ~ uses d q) /\
         ((exists d, In d (map fst A) /\ uses d p) \/ (forall d x, In d (map fst A) -> uses d x -> ~ joined es p x))) /\
    ((exists e, In e es /\ uses e start) ->
       forall A e p B, l = A ++ (e, p) :: B -> joined es start p ->
         p = start \/ exists d, In d (map fst A) /\ uses d p).
Proof.
  intros E.
  assert (J : 0 < junk). { unfold construct in E. destruct (Z.leb_spec junk 0); [discriminate|lia]. }
  assert (NE : es <> []). { intros ->. unfold construct in E. destruct (junk <=? 0); discriminate. }
  destruct (construct_ok junk es J NE) as (t' & E' & B). rewrite E in E'. injection E' as <-.
  set (K := tree_edges t). assert (EK : K = chosen es (prim_used t)) by (unfold K, tree_edges; rewrite (b_prims _ _ B); auto).
  pose proof (b_greedy _ _ B) as G.
  assert (NL : forall e, In e K -> node1 e <> node2 e) by (intros e He; rewrite EK in He; eapply greedy_no_loop; eauto).
  set (used := fun x => exists e, In e es /\ uses e x).
  set (n := Z.of_nat (length (node_used t))).
  assert (HUR : forall x, used x -> min_node t <= x < min_node t + n).
  { intros x (e & He & U). destruct (b_range _ _ B e He) as [R1 R2]. fold n in R1, R2. unfold uses in U. lia. }
  assert (HK : forall e x, In e K -> uses e x -> used x).
  { intros e x He U. exists e. split; auto. rewrite EK in He. eapply chosen_in; eauto. }
  (* every edge of the input is joined by K *)
  assert (AF : acyc [] (ends (rev K))).
  { pose proof (greedy_acyc es [] (prim_used t) G I) as A. rewrite app_nil_r, <- EK in A. exact A. }
  assert (FK : forest K). { eapply forest_perm; [symmetry; apply Permutation_rev|]. apply acyc_is_forest; auto. }
  assert (SP : forall e, In e es -> joined K (node1 e) (node2 e)).
  { intros e He. assert (GS : forall l U u, greedy U l u -> forall e, In e l -> joined (chosen l u ++ U) (node1 e) (node2 e)).
    { clear. induction l as [|a l IH]; intros U [|b u] G e He; simpl in *; try tauto. destruct G as [Bb G]. destruct He as [<-|He].
      - destruct b; [apply l_edge; left; auto|]. destruct (linked_dec (ends U) (node1 a) (node2 a)) as [D|D]; [|apply Bb in D; discriminate].
        eapply joined_incl; [|exact D]. apply incl_appr, incl_refl.
      - specialize (IH _ _ G e He). destruct b; auto. eapply joined_incl; [|exact IH]. intros x. simpl. rewrite !in_app_iff. simpl. tauto. }
    pose proof (GS es [] (prim_used t) G e He) as Q. rewrite app_nil_r, <- EK in Q. auto. }
  assert (JE : forall x y, joined es x y <-> joined K x y).
  { intros x y. split.
    - intros Q. eapply linked_sub; [|exact Q]. intros p Hp. apply in_map_iff in Hp. destruct Hp as (e & <- & He). apply SP; auto.
    - apply joined_incl. rewrite EK. intros z. apply chosen_in. }
  assert (NZ : 0 < n). { destruct es as [|e0 es']; [contradiction|]. destruct (HUR (node1 e0)); [exists e0; split; [left; auto|left; auto]|]. lia. }
  assert (NU : forall i, 0 <= i < n -> (nth (Z.to_nat i) (node_used t) false = true <-> used (i + min_node t))).
  { intros i Hi. unfold used. rewrite <- (b_node _ _ B (i + min_node t)) by (fold n; lia). replace (i + min_node t - min_node t) with i by lia. tauto. }
  set (j0 := start - min_node t). set (j1 := if (j0 <? 0) || (n <=? j0) then 0 else j0).
  assert (R1 : 0 <= j1 < n).
  { unfold j1. destruct (Z.ltb_spec j0 0), (Z.leb_spec n j0); simpl; lia. }
  set (j2 := seek (skipn (Z.to_nat j1) (node_used t)) j1).
  set (j := if n <=? j2 then seek (node_used t) 0 else j2).
  assert (SK : forall b, In b (skipn (Z.to_nat j1) (node_used t)) -> In b (node_used t)).
  { intros b Hb. rewrite <- (firstn_skipn (Z.to_nat j1) (node_used t)). apply in_or_app; auto. }
  assert (LS : Z.of_nat (length (skipn (Z.to_nat j1) (node_used t))) = n - j1) by (rewrite skipn_length; unfold n in *; lia).
  assert (HJ : 0 <= j < n /\ nth (Z.to_nat j) (node_used t) false = true).
  { unfold j. destruct (seek_spec (skipn (Z.to_nat j1) (node_used t)) j1) as [[A1 A2]|[A1 A2]]; fold j2 in A1, A2; rewrite LS in A1.
    - destruct (Z.leb_spec n j2); [lia|]. split; [lia|].
      rewrite <- (firstn_skipn (Z.to_nat j1) (node_used t)). rewrite app_nth2; rewrite firstn_length_le; unfold n in *; try lia.
      replace (Z.to_nat j2 - Z.to_nat j1)%nat with (Z.to_nat (j2 - j1)) by lia. auto.
    - destruct (Z.leb_spec n j2); [|lia]. destruct (seek_spec (node_used t) 0) as [[B1 B2]|[B1 B2]]; fold n in B1.
      + split; [lia|]. rewrite Z.sub_0_r in B2. auto.
      + exfalso. destruct es as [|e0 es']; [contradiction|].
        assert (U0 : used (node1 e0)) by (exists e0; split; [left; auto|left; auto]). pose proof (HUR _ U0) as RU.
        assert (Q : nth (Z.to_nat (node1 e0 - min_node t)) (node_used t) false = true).
        { apply NU; [lia|]. replace (node1 e0 - min_node t + min_node t) with (node1 e0) by lia. auto. }
        assert (In true (node_used t)). { rewrite <- Q. apply nth_In. unfold n in RU. lia. }
        apply B2 in H0. discriminate. }
  destruct HJ as [RJ UJ].
  destruct (starts_ok K NL t used) with (f := S (length (node_used t))) (is := zrange j n ++ zrange 0 j)
    (v := repeat false (length (node_used t))) (V := @nil Z) as (v' & l & rs & V' & ES & FV & TT & _ & ALL & FST).
  - intros x Hx. rewrite (b_node _ _ B x Hx). reflexivity.
  - exact HUR.
  - apply (b_len _ _ B).
  - intros x Hx. rewrite (b_edges _ _ B x Hx), EK. reflexivity.
  - exact HK.
  - lia.
  - split; [apply repeat_length|]. intros x. split; [intros []|]. intros [_ Q]. rewrite nth_repeat in Q. discriminate.
  - intros y [].
  - intros i Hi. apply in_app_or in Hi. fold n. destruct Hi as [Hi|Hi]; apply in_zrange in Hi; lia.
  - exists l. split; [|split; [|split]].
    + unfold apply. fold n j0 j1 j2 j. destruct (Z.leb_spec n 0); [lia|].
      destruct ((j <? 0) || (n <=? j)) eqn:OUT.
      { exfalso. apply orb_true_iff in OUT. destruct OUT as [Q|Q]; [apply Z.ltb_lt in Q|apply Z.leb_le in Q]; lia. }
      rewrite (get_ok (node_used t) j false) by (fold n; lia). cbn [bind]. rewrite UJ. cbn [negb]. rewrite ES. reflexivity.
    + assert (NDL : NoDup (map fst l)) by (eapply trees_nodup with (P := []); eauto; intros d x []).
      assert (NDK : NoDup K).
      { clear -FK. induction K as [|e K IH]; constructor.
        - intros I. apply (FK [] e K eq_refl). apply l_edge. apply in_ends; auto.
        - apply IH. intros A x B -> Q. apply (FK (e :: A) x B eq_refl). eapply joined_incl; [|exact Q]. intros y Hy. right; auto. }
      assert (EDEC : forall x y : edge, {x = y} + {x <> y}) by (decide equality; apply Z.eq_dec).
      fold K. apply NoDup_Permutation; auto. intros e. split; [apply (trees_in _ _ _ _ _ TT)|].
      intros He. destruct (in_dec EDEC e (map fst l)) as [|N]; auto. exfalso.
      assert (U1 : used (node1 e)) by (apply (HK e); auto; left; auto). pose proof (HUR _ U1) as RU.
      assert (V1 : In (node1 e) V').
      { assert (Q := ALL (node1 e - min_node t)). replace (node1 e - min_node t + min_node t) with (node1 e) in Q by lia. apply Q; auto.
        apply in_or_app. rewrite !in_zrange. lia. }
      assert (Q : joined (map fst l) (node1 e) (node2 e)).
      { eapply trees_edge; eauto. left; auto. }
      destruct (in_split e K He) as (A & C & EQ). rewrite EQ in FK. apply (FK A e C eq_refl).
      eapply joined_incl; [|exact Q]. intros x Hx. assert (Kx : In x K) by (apply (trees_in _ _ _ _ _ TT); auto).
      rewrite EQ in Kx. apply in_app_or in Kx. apply in_or_app. destruct Kx as [Kx|[Kx|Kx]]; auto. subst x. contradiction.
    + intros A e p C EQ. destruct (trees_steps K _ _ _ _ TT [] ltac:(intros d x []) A (e, p) C EQ) as [(S1 & S2 & S3) _].
      cbn [fst snd app] in *. exists (other (e, p)). split; [exact S1|]. split.
      * intros d Hd U. apply in_map_iff in Hd. destruct Hd as (c & <- & Hc). apply (S2 c Hc U).
      * destruct S3 as [(d & Hd & U)|S3]; [left; exists (fst d); split; auto; apply in_map; auto|right].
        intros d x Hd U Q. apply in_map_iff in Hd. destruct Hd as (c & <- & Hc). apply (S3 c x Hc U). apply JE; auto.
    + intros US A e p C EQ Q. pose proof (HUR _ US) as RS.
      assert (JS : j = start - min_node t).
      { assert (E1 : j1 = j0). { unfold j1, j0 in *. destruct (Z.ltb_spec (start - min_node t) 0), (Z.leb_spec n (start - min_node t)); simpl; lia. }
        assert (E2 : j2 = j0).
        { unfold j2. rewrite E1. assert (X : nth (Z.to_nat j0) (node_used t) false = true).
          { apply NU; [unfold j0; lia|]. unfold j0. replace (start - min_node t + min_node t) with start by lia. auto. }
          rewrite <- (firstn_skipn (Z.to_nat j0) (node_used t)) in X.
          assert (LF : length (firstn (Z.to_nat j0) (node_used t)) = Z.to_nat j0) by (apply firstn_length_le; unfold n, j0 in *; lia).
          rewrite app_nth2 in X by lia. rewrite LF in X. unfold j0 in *.
          rewrite Nat.sub_diag in X. destruct (skipn (Z.to_nat (start - min_node t)) (node_used t)) as [|b rest]; [discriminate|].
          simpl in X. subst b. reflexivity. }
        unfold j. destruct (Z.leb_spec n j2); unfold j0 in *; lia. }
      destruct (FST j (zrange (j + 1) n ++ zrange 0 j)) as (rs' & ER).
      { rewrite zrange_cons by lia. reflexivity. }
      { rewrite JS. replace (start - min_node t + min_node t) with start by lia. exact US. }
      { intros []. }
      rewrite JS in ER. replace (start - min_node t + min_node t) with start in ER by lia. subst rs.
      destruct (trees_root K _ _ _ _ _ TT A (e, p) C EQ) as [X|(d & Hd & U)]; [apply JE; auto|left; auto|right].
      exists (fst d). split; auto. apply in_map; auto.
Qed.

(* Two components, a cycle, a parallel edge and a loop. *)
Definition mst_es : list edge :=
  [Edge 5 5 0; Edge 1 2 1; Edge 2 3 2; Edge 2 1 2; Edge 1 3 3; Edge 7 8 4].
Example mst_ex : by_cost mst_es /\
  (match construct 1 mst_es with
   | Ok t => Some (tree_edges t, apply t 3)
   | _ => None end) = Some ([Edge 1 2 1; Edge 2 3 2; Edge 7 8 4],
                            Ok [(Edge 2 3 2, 3); (Edge 1 2 1, 2); (Edge 7 8 4, 7)]).
Proof.
  split; [|reflexivity]. unfold mst_es. repeat constructor; simpl; intros x H; repeat destruct H as [<-|H]; simpl; try lia; contradiction.
Qed.

Print Assumptions mst_minimal.
Print Assumptions mst_constructor_refuted.
Print Assumptions mst_apply.
