(** Spatial trees: insertion without level limits comes to an end. *)
From Verif Require Import Lib.Base Lib.Lists STree.Model STree.Spec STree.Geom STree.Grid STree.Proofs STree.Build STree.Insert.
From Coq Require Import List Arith Bool ZArith QArith Qround Lqa Lia Permutation.
Import ListNotations.

Section Total.
Context (pbox : nat -> box).
Notation placed := (placed pbox).

(** The width of a box in the first coordinate. *)
Definition hw (b : box) : Q := match b with [] => 0 | i :: _ => size i end.

Lemma hw_contains b bb : bb <> [] -> contains b bb = true -> hw bb <= hw b.
Proof.
  intros N H. apply contains_iff in H as (_ & W). destruct W as [|i j b c (W1 & W2) _]; [congruence|].
  cbn [hw]. unfold size. lra.
Qed.

Lemma hw_eq a b : Forall2 same a b -> hw a == hw b.
Proof. intros [|i j a' b' (E1 & E2) _]; cbn [hw]; [reflexivity|]. unfold size. rewrite E1, E2. reflexivity. Qed.

Lemma hw_split b q : In q (split_bbox b) -> b <> [] -> hw q == 0 \/ hw q == hw b * (1 # 2).
Proof.
  intros J N. destruct b as [|i b]; [congruence|]. apply split_head in J as [->|(j & q' & -> & E)]; [left; reflexivity|right; exact E].
Qed.

Lemma visit_kids_total f path ks : Forall (fun k => forall pa st, exists r, f pa k st = Ok r) ks ->
  forall i st, exists r, visit_kids f path i ks st = Ok r.
Proof.
  induction 1 as [|k ks H _ IH]; intros i st; cbn [visit_kids]; [eauto|].
  destruct (IH (S i) st) as ((ks' & st') & ->). cbn [bind]. destruct (H (path ++ [i]) st') as ((k' & st2) & ->).
  cbn [bind]. eauto.
Qed.

Lemma pow2_pos k : 0 < pow2 k.
Proof.
  assert (H : (0 < 2 ^ Z.of_nat k)%Z) by (apply Z.pow_pos_nonneg; lia). rewrite Zlt_Qlt in H. exact H.
Qed.

Lemma visit_total create mx bb : 0 < hw bb -> bb <> [] -> forall fuel level path t st,
  regular t -> hw (tbox t) < pow2 fuel * hw bb -> exists r, visit (S fuel) create mx bb level path t st = Ok r.
Proof.
  intros Pw N. induction fuel as [|fuel IH]; intros level path t st R L.
  - cbn [visit]. destruct t as [b l ks]. cbn [tbox] in L. change (pow2 0) with 1 in L.
    destruct (contains b bb) eqn:C; cbn [negb]; [|eauto]. apply (hw_contains _ _ N) in C. lra.
  - remember (S fuel) as g eqn:Eg. cbn [visit]. destruct t as [b l ks]. cbn [tbox] in L.
    destruct (contains b bb) eqn:C; cbn [negb]; [|eauto].
    assert (Nb : b <> []) by (intros ->; discriminate).
    set (A := if create && is_nil ks then _ else _). destruct A as [ks0 st0] eqn:EA.
    assert (K : Forall (fun k => regular k /\ hw (tbox k) < pow2 fuel * hw bb) ks0).
    { assert (Small : forall q, In q (split_bbox b) -> hw q < pow2 fuel * hw bb).
      { intros q J. rewrite Eg, pow2_S in L. pose proof (Qmult_lt_0_compat _ _ (pow2_pos fuel) Pw) as X.
        destruct (hw_split b q J Nb) as [E|E]; rewrite E; [exact X|].
        set (z := pow2 fuel * hw bb) in *. assert ((pow2 fuel + pow2 fuel) * hw bb == z + z) by (unfold z; ring). lra. }
      assert (Old : Forall (fun k => regular k /\ hw (tbox k) < pow2 fuel * hw bb) ks).
      { apply regular_node in R as (Q & Rk). destruct Q as [->|Q]; [constructor|]. rewrite Forall_forall in *.
        intros k J. split; [auto|]. clear - Q J Small. remember (map tbox ks) as bs eqn:Eb. revert ks Eb J.
        induction Q as [|x y bs qs E _ IH]; intros ks Eb J.
        - destruct ks; [destruct J|discriminate].
        - destruct ks as [|k0 ks]; [discriminate|]. injection Eb as -> ->. destruct J as [->|J].
          + rewrite (hw_eq _ _ E). apply Small. left. reflexivity.
          + eapply IH; eauto. intros q Jq. apply Small. right. exact Jq. }
      unfold A in EA. destruct (create && is_nil ks); [|congruence]. destruct ((mx <? 0)%Z || (level <? mx)%Z); [|congruence].
      injection EA as <- _. destruct (existsb _ _); [|exact Old]. apply Forall_forall. intros k J.
      apply in_map_iff in J as (q & <- & J). split; [apply (leaf_ok pbox)|apply Small; exact J]. }
    edestruct (visit_kids_total (visit g create mx bb (level + 1)) path ks0) as ((ks1 & st1) & ->); [|cbn [bind]; eauto].
    eapply Forall_impl; [|exact K]. cbn beta. intros k (Rk & Lk) pa st'. apply IH; assumption.
Qed.

Lemma pow2_big W w : 0 < w -> exists n, forall m, (n <= m)%nat -> W < pow2 m * w.
Proof.
  intros P. exists (Z.to_nat (Qceiling (W / w) + 1)). intros m L.
  assert (X : (Qceiling (W / w) < 2 ^ Z.of_nat m)%Z).
  { pose proof (Z.pow_gt_lin_r 2 (Z.of_nat m) ltac:(lia) ltac:(lia)). lia. }
  rewrite Zlt_Qlt in X. pose proof (Qle_ceiling (W / w)) as Y.
  assert (Z1 : W / w < inject_Z (2 ^ Z.of_nat m)) by lra.
  apply (Qmult_lt_r _ _ w P) in Z1. rewrite Qmult_comm, Qmult_div_r in Z1 by lra. exact Z1.
Qed.

Lemma solid_pos b : solid b -> Forall (fun i => 0 < size i) b /\ proper b /\ 0 < hw b.
Proof.
  intros (N & F). split; [|split].
  - eapply Forall_impl; [|exact F]. cbn beta. intros i. unfold size. lra.
  - eapply Forall_impl; [|exact F]. cbn beta. intros i. lra.
  - destruct F as [|i b F1 _]; [congruence|]. cbn [hw]. unfold size. lra.
Qed.

Definition near (b nb : box) : Prop :=
  Forall2 (fun i s => size s + size i <= inject_Z (2 ^ 31) * size i) b (grow b nb).

Lemma grow_root_total t nb : placed t -> regular t -> solid (tbox t) -> length (tbox t) = length nb -> solid nb ->
  near (tbox t) nb ->
  exists r n, forall fuel, (n <= fuel)%nat -> exists t', grow_root fuel t nb = Ok t' /\ tbox t' = r.
Proof.
  intros P R So L Sn Nr. destruct (solid_pos _ So) as (Pos & Pr & Hw). pose proof (proj1 So) as N.
  destruct (grid_near _ _ Pos N L Nr) as (super & Eg).
  destruct (grid_ok _ _ _ Pr L N Eg) as (_ & (p & Al) & Cs & Cn).
  destruct (pow2_big (hw super) _ Hw) as (n & Hn). exists super, (S n). intros fuel Lf. destruct fuel as [|fuel]; [lia|].
  destruct (visit_total true (-1) (tbox t) Hw N fuel 0%Z [] (leaf super) nothing) as ((root & st) & Ev);
    [apply (leaf_ok pbox)|cbn [leaf tbox]; apply Hn; lia|].
  assert (X : exists t', grow_root (S fuel) t nb = Ok t').
  { unfold grow_root. rewrite Eg. cbn [bind]. rewrite Ev. cbn [bind]. apply (visit_ok pbox) in Ev.
    destruct Ev as [(C & _)|(_ & W)]; [cbn [leaf tbox] in C; congruence|].
    destruct W as [_ (rel & Wn & (_ & m & An & _) & _) _ _ _]. cbn [app] in Wn. rewrite Wn, An.
    destruct (Qlt_b _ _); eauto. }
  destruct X as (t' & E). exists t'. split; [exact E|].
  unfold grow_root in E. rewrite Eg in E. cbn [bind] in E. rewrite Ev in E. cbn [bind] in E. apply (visit_ok pbox) in Ev.
  destruct Ev as [(C & _)|(_ & W)]; [cbn [leaf tbox] in C; congruence|].
  destruct W as [Wk (rel & Wn & (_ & m & An & _) & _) _ _ _]. cbn [app] in Wn. rewrite Wn, An in E.
  pose proof (kept_box _ _ _ Wk) as Bx. cbn [leaf tbox] in Bx.
  destruct (Qlt_b _ _); injection E as <-; rewrite !replace_tbox by reflexivity; exact Bx.
Qed.

Lemma add_total t x : placed t -> regular t -> free t -> solid (tbox t) -> solid (pbox x) ->
  length (tbox t) = length (pbox x) -> (contains (tbox t) (pbox x) = true \/ near (tbox t) (pbox x)) ->
  exists n, forall fuel, (n <= fuel)%nat -> exists t', add pbox fuel t x (-1) = Ok t'.
Proof.
  intros P R F So Sx L Nr. destruct (solid_pos _ Sx) as (_ & _ & Hx). destruct (solid_pos _ So) as (_ & Pr & _).
  assert (G : exists b n, forall fuel, (n <= fuel)%nat -> exists t1,
     (if contains (tbox t) (pbox x) then Ok t else grow_root fuel t (pbox x)) = Ok t1 /\ tbox t1 = b /\
     placed t1 /\ regular t1 /\ free t1 /\ contains (tbox t1) (pbox x) = true /\ length (elems t1) = length (elems t)).
  { destruct (contains (tbox t) (pbox x)) eqn:C.
    - exists (tbox t), 0%nat. intros fuel _. exists t. rewrite C. auto 10.
    - destruct Nr as [Nr|Nr]; [discriminate|].
      destruct (grow_root_total t (pbox x) P R So L Sx Nr) as (r & n & H). exists r, n. intros fuel Lf.
      destruct (H fuel Lf) as (t1 & E & B). exists t1. split; [exact E|]. split; [exact B|].
      destruct (grow_root_ok pbox fuel t (pbox x) t1 P R Pr (proj1 So) L E) as ([] & Cn).
      split; [assumption|]. split; [assumption|]. split; [eapply free_perm; eauto|].
      split; [apply Cn, empty_false_iff; exact Sx|apply Permutation_length; assumption]. }
  destruct G as (b & n1 & G). destruct (pow2_big (hw b) _ Hx) as (n2 & H2).
  exists (n1 + S n2 + (2 + length (elems t)))%nat. intros fuel Lf.
  destruct (G fuel ltac:(lia)) as (t1 & E1 & B1 & P1 & R1 & F1 & C1 & Le). unfold add.
  replace (negb (is_nil (tbox t)) && negb (Nat.eqb (length (tbox t)) (length (pbox x)))) with false
    by (rewrite L, Nat.eqb_refl, andb_false_r; reflexivity).
  rewrite E1. cbn [bind]. destruct fuel as [|fuel]; [lia|].
  destruct (visit_total true (-1) (pbox x) Hx (proj1 Sx) fuel 0%Z [] t1 nothing R1) as ((t2 & st) & Ev);
    [rewrite B1; apply H2; lia|].
  rewrite Ev. cbn [bind]. apply (visit_ok pbox) in Ev. destruct Ev as [(C & _)|(_ & W)]; [congruence|].
  destruct W as [Wk (rel & Wn & (Ch & m & An & _) & _) Ws _ Wf]. cbn [app] in Wn. rewrite Wn.
  rewrite (Wf eq_refl). cbn [nothing forced_level].
  destruct (push_ok pbox (Elem x false) rel t2 m (kept_placed _ _ _ Wk P1) (kept_regular _ _ _ Wk R1) Ch An) as (P3 & R3 & M3).
  destruct (first_split st) as [fs|] eqn:Ef; [|eauto].
  destruct Ws as [Ws|(_ & rel' & Ws & Ch')]; [discriminate|]. cbn [app] in Ws. injection Ws as ->.
  assert (Ch3 : chain (pbox x) rel' (replace rel (push (Elem x false)) t2)) by (apply replace_chain; auto).
  destruct (chain_at _ _ _ Ch3) as (c & Ac & _). set (t3 := replace rel _ t2) in *.
  exists t3. apply relocate_free_ok with (c := c); [|exact Ac|].
  - eapply Permutation_Forall; [apply Permutation_sym; exact M3|]. constructor; [reflexivity|].
    rewrite (kept_elems _ _ _ Wk). exact F1.
  - split; [lia|]. pose proof (Permutation_length M3) as Ln. cbn [length] in Ln. rewrite (kept_elems _ _ _ Wk), Le in Ln.
    assert (Lc : (length (tlist c) <= length (elems t3))%nat).
    { clear - Ac. revert Ac. generalize t3 as t0. induction rel' as [|i p IH]; intros t0 A; cbn [at_path] in A.
      - injection A as ->. destruct c. cbn [tlist elems]. rewrite app_length. lia.
      - destruct (nth_error (tkids t0) i) as [k|] eqn:E; [|discriminate]. specialize (IH k A).
        destruct t0 as [bb l ks]. cbn [tkids elems] in *. apply nth_error_split in E as (k1 & k2 & -> & _).
        rewrite app_length, flat_map_app, app_length. cbn [flat_map]. rewrite app_length. lia. }
    lia.
Qed.
End Total.
