(* The recursion. *)
From Coq Require Import ZArith QArith Qcanon List Lia Bool Permutation Sorted.
From Verif Require Import Lib.Base Lib.Img Chip.Model Chip.Spec Chip.Proofs Chip.Split.
Import ListNotations.
Local Open Scope Z_scope.

Section Rec.
Variables (sub : Qc -> Qc -> Qc) (conv : point -> point) (buffer : list point) (bs cb nrb n : Z).
Let s := Z.of_nat (length buffer).
Notation P := (bound s n).
Let parts := map P (zrange 0 (n + 1)).
Hypotheses (BS : 0 < bs) (CB : 0 <= cb) (NRB : 0 < nrb) (N : 0 < n) (NS : n <= s) (MX : (s + n - 1) / n <= bs * bs) (ROOM : n <= cb * nrb).

Lemma P_range i : 0 <= i <= n -> 0 <= P i <= s.
Proof.
  intros I. split.
  - destruct (Z.eq_dec i 0) as [->|]; [rewrite bound_0; lia|]. pose proof (bound_mono s n 0 i N NS). rewrite bound_0 in H by lia. lia.
  - destruct (Z.eq_dec i n) as [->|]; [rewrite bound_n; lia|]. pose proof (bound_mono s n i n N NS). rewrite bound_n in H by lia. lia.
Qed.
Lemma P_lt i j : i < j -> P i < P j.
Proof. intros. now apply bound_mono. Qed.
Lemma P_step i : P (i + 1) - P i <= bs * bs.
Proof. pose proof (bound_step s n i N). lia. Qed.

Lemma ranked_along f a L R u v : ranked f a L R -> L <= u -> v <= R -> along f (pts a u v).
Proof.
  intros [V O] U W. unfold along, pts. destruct (Z.le_gt_cases v u) as [H|H]; [rewrite zrange_nil by lia; constructor|].
  remember (Z.to_nat (v - u)) as k eqn:K. revert u U K H. induction k as [|k IH]; intros u U K H; [lia|]. rewrite zrange_cons by lia. cbn [map]. constructor.
  - destruct (Z.eq_dec (u + 1) v) as [<-|]; [rewrite zrange_nil by lia; constructor|]. apply IH; lia.
  - rewrite Forall_forall. intros p I. apply in_map_iff in I as (j & <- & J). apply in_zrange in J. rewrite <- !V by lia. apply O; lia.
Qed.
Lemma ranked_apart f a L R u v w : ranked f a L R -> L <= u -> w <= R -> u <= v <= w -> apart f (pts a u v) (pts a v w).
Proof.
  intros [V O] U W UVW p q I J. apply in_map_iff in I as (i & <- & I). apply in_map_iff in J as (j & <- & J). apply in_zrange in I, J. rewrite <- !V by lia. apply O; lia.
Qed.
Lemma pts_app a u v w : u <= v <= w -> pts a u w = pts a u v ++ pts a v w.
Proof. intros. unfold pts. now rewrite (zrange_app u v w), map_app. Qed.
Lemma pts_length a u v : u <= v -> Z.of_nat (length (pts a u v)) = v - u.
Proof. intros. unfold pts. rewrite map_length, zrange_length. lia. Qed.

Lemma linked_same a a' b b' L R : (forall i, L <= i < R -> el a' i = el a i) -> (forall i, L <= i < R -> el b' i = el b i) -> linked a b L R -> linked a' b' L R.
Proof. intros A B H i I. rewrite A by auto. destruct (H i I) as (H1 & H2 & H3). rewrite B by auto. auto. Qed.
Lemma ranked_same f a a' L R : (forall i, L <= i < R -> el a' i = el a i) -> ranked f a L R -> ranked f a' L R.
Proof. intros A [H1 H2]. split; [intros i I; rewrite A by auto; auto|]. intros i j I J. rewrite !A by lia. auto. Qed.
Lemma same_out_weak L R L' R' a b : same_out L' R' a b -> L <= L' -> R' <= R -> same_out L R a b.
Proof. intros [S E] H1 H2. split; auto. intros i I. apply E. lia. Qed.
Lemma same_out_trans L R a b c : same_out L R a b -> same_out L R b c -> same_out L R a c.
Proof. intros [S E] [S' E']. split; [congruence|]. intros i I. rewrite E by auto. auto. Qed.
Lemma same_out_refl L R a : same_out L R a a.
Proof. split; auto. Qed.

Definition axes (f g : Z -> Qc) : Prop := (f = X buffer /\ g = Y buffer) \/ (f = Y buffer /\ g = X buffer).
Definition good_chips (pl pr : Z) (chips : list (list Z)) : Prop :=
  map (fun c => Z.of_nat (length c)) chips = map (fun i => P (i + 1) - P i) (zrange pl pr) /\
  ForallOrdPairs (separated buffer) chips /\ Forall (fun c => along (X buffer) c \/ along (Y buffer) c) chips.
Definition ready (f g : Z -> Qc) (a b spare : vec) (L R : Z) : Prop :=
  linked a b L R /\ linked b a L R /\ ranked f a L R /\ ranked g b L R /\ size a = s /\ size b = s /\ size spare = s /\
  (forall i, L <= i < R -> 0 <= pt (el a i) < s).
Definition worked (r : res (vec * vec * vec * state)) (a b spare : vec) (out : img point) (pl pr : Z) : Prop :=
  exists a' b' sp' out' chips, r = Ok (a', b', sp', (out', pr)) /\
    same_out (P pl) (P pr) a' a /\ same_out (P pl) (P pr) b' b /\ same_out (P pl) (P pr) sp' spare /\
    drawn conv buffer bs cb nrb pl chips out out' /\ good_chips pl pr chips /\ Permutation (concat chips) (pts a (P pl) (P pr)).

Lemma axes_along f g c : axes f g -> along f c -> along (X buffer) c \/ along (Y buffer) c.
Proof. intros [[-> ->]|[-> ->]]; auto. Qed.
Lemma axes_apart f g c d : axes f g -> apart f c d -> separated buffer c d.
Proof. unfold separated. intros [[-> ->]|[-> ->]]; auto. Qed.

Lemma FOP_app {A} (R : A -> A -> Prop) l m : ForallOrdPairs R l -> ForallOrdPairs R m -> (forall a b, In a l -> In b m -> R a b) -> ForallOrdPairs R (l ++ m).
Proof.
  induction 1 as [|x l F _ IH]; intros M H; auto. cbn [app]. constructor.
  - apply Forall_app. split; auto. rewrite Forall_forall. intros b B. apply H; cbn; auto.
  - apply IH; auto. intros a b I B. apply H; cbn; auto.
Qed.

Lemma split_ok decide f g wide narrow spare pl pr out :
  (forall f g a b spare pl' pr' out, axes f g -> 0 <= pl' < pr' -> pr' <= n -> pr' - pl' < pr - pl -> sized bs cb nrb out ->
     ready f g a b spare (P pl') (P pr') -> worked (decide a b spare pl' pr' (out, pl')) a b spare out pl' pr') ->
  axes f g -> 0 <= pl < pr -> pr <= n -> sized bs cb nrb out -> ready f g wide narrow spare (P pl) (P pr) ->
  worked (split conv buffer bs parts decide wide narrow spare pl pr (out, pl)) wide narrow spare out pl pr.
Proof.
  intros IH AX PL PR SZ (LA & LB & RA & RB & Sa & Sb & Ss & PT). unfold split. unfold parts at 1 2. rewrite !part_ok by lia. cbn [bind].
  pose proof (P_range pl ltac:(lia)) as B1. pose proof (P_range pr ltac:(lia)) as B2. pose proof (P_lt pl pr ltac:(lia)) as B3.
  destruct (Z.eqb_spec (pr - pl) 1) as [E1|E1].
  - assert (pr = pl + 1) by lia. subst pr. pose proof (P_step pl).
    destruct (emit_ok conv buffer bs cb nrb BS CB NRB wide (P pl) (P (pl + 1)) out pl SZ) as (out' & E & D); try lia; [apply PT|]. rewrite E. cbn [bind].
    exists wide, narrow, spare, out', [pts wide (P pl) (P (pl + 1))]. split; [reflexivity|]. repeat (split; [apply same_out_refl|]). split; [exact D|]. split.
    + split; [|split].
      * rewrite zrange_cons, zrange_nil by lia. cbn [map]. now rewrite pts_length by lia.
      * repeat constructor.
      * constructor; [|constructor]. apply (axes_along f g); auto. eapply ranked_along; eauto; lia.
    + cbn [concat]. now rewrite app_nil_r.
  - destruct (Z.eqb_spec (pr - pl) 2) as [E2|E2].
    + assert (pr = pl + 1 + 1) by lia. subst pr. unfold final_split. replace (pl + 1 + 1 - 1) with (pl + 1) by lia. unfold parts. rewrite !part_ok by lia. cbn [bind].
      pose proof (P_step pl). pose proof (P_step (pl + 1)). pose proof (P_lt pl (pl + 1) ltac:(lia)). pose proof (P_lt (pl + 1) (pl + 1 + 1) ltac:(lia)).
      destruct (emit_ok conv buffer bs cb nrb BS CB NRB wide (P pl) (P (pl + 1)) out pl SZ) as (out1 & F1 & D1); try lia; [intros; apply PT; lia|]. rewrite F1. cbn [bind].
      destruct (emit_ok conv buffer bs cb nrb BS CB NRB wide (P (pl + 1)) (P (pl + 1 + 1)) out1 (pl + 1)) as (out2 & F2 & D2); try lia; [split; apply D1|intros; apply PT; lia|]. rewrite F2. cbn [bind].
      exists wide, narrow, spare, out2, ([pts wide (P pl) (P (pl + 1))] ++ [pts wide (P (pl + 1)) (P (pl + 1 + 1))]). split; [reflexivity|]. repeat (split; [apply same_out_refl|]).
      split; [eapply drawn_app; [exact D1|exact D2]|]. split.
      * split; [|split].
        -- rewrite zrange_cons, (zrange_cons (pl + 1)), zrange_nil by lia. cbn [map app]. now rewrite !pts_length by lia.
        -- cbn [app]. constructor; [|constructor; constructor]. constructor; [|constructor]. apply (axes_apart f g); auto. eapply ranked_apart; eauto; lia.
        -- cbn [app]. constructor; [|constructor; [|constructor]]; apply (axes_along f g); auto; eapply ranked_along; eauto; lia.
      * cbn [concat app]. rewrite app_nil_r. now rewrite <- pts_app by lia.
    + unfold cdiv. destruct (Z.eqb_spec 2 0); [discriminate|]. cbn [bind]. rewrite Z.quot_div_nonneg by lia. set (pc := (pl + pr) / 2).
      assert (PC : pl < pc < pr) by (unfold pc; Z.div_mod_to_equations; lia). unfold parts. rewrite part_ok by lia. cbn [bind].
      pose proof (P_lt pl pc ltac:(lia)). pose proof (P_lt pc pr ltac:(lia)).
      destruct (distribute_ok g wide narrow spare (P pl) (P pr) (P pc) LA LB RB) as (w & sp & E & W1 & W2 & W3 & K1 & K2 & K3 & K4 & K5 & K6); try lia. rewrite E. cbn [bind].
      assert (RW : ranked f w (P pl) (P pr)).
      { split.
        - intros i I. destruct (W3 i I) as [-> ->]. now apply RA.
        - intros i j I J. rewrite (proj1 (W3 i ltac:(lia))), (proj1 (W3 j ltac:(lia))). now apply RA. }
      assert (PW : forall u v, P pl <= u -> v <= P pr -> pts w u v = pts wide u v).
      { intros u v U V. apply map_ext_in. intros i I. apply in_zrange in I. apply W3. lia. }
      destruct (IH f g w sp narrow pl pc out AX) as (a1 & b1 & n1 & o1 & c1 & E3 & SA1 & SB1 & SN1 & D1 & (G1 & G2 & G3) & Q1); try lia; auto.
      { split; [exact K1|]. split; [exact K2|]. split; [destruct RW as [R1 R2]; split; [intros; apply R1; lia|intros; apply R2; lia]|]. split; [exact K5|].
        split; [rewrite (proj1 W1); auto|]. split; [rewrite (proj1 W2); auto|]. split; auto. intros i I. rewrite (proj2 (W3 i ltac:(lia))). apply PT. lia. }
      rewrite E3. cbn [bind].
      destruct (IH f g a1 b1 n1 pc pr o1 AX) as (a2 & b2 & n2 & o2 & c2 & E4 & SA2 & SB2 & SN2 & D2 & (H1 & H2 & H3) & Q2); try lia; [split; apply D1| |].
      { assert (EA : forall i, P pc <= i < P pr -> el a1 i = el w i) by (intros i I; apply SA1; lia). assert (EB : forall i, P pc <= i < P pr -> el b1 i = el sp i) by (intros i I; apply SB1; lia).
        split; [apply (linked_same w a1 sp b1); auto|]. split; [apply (linked_same sp b1 w a1); auto|].
        split; [apply (ranked_same f w a1); auto; destruct RW as [R1 R2]; split; [intros; apply R1; lia|intros; apply R2; lia]|]. split; [now apply (ranked_same g sp b1)|].
        split; [rewrite (proj1 SA1), (proj1 W1); auto|]. split; [rewrite (proj1 SB1), (proj1 W2); auto|]. split; [rewrite (proj1 SN1); auto|].
        intros i I. rewrite EA, (proj2 (W3 i ltac:(lia))) by lia. apply PT. lia. }
      rewrite E4. cbn [bind].
      assert (Q2' : Permutation (concat c2) (pts wide (P pc) (P pr))).
      { rewrite Q2. rewrite <- PW by lia. replace (pts w (P pc) (P pr)) with (pts a1 (P pc) (P pr)); auto. apply map_ext_in. intros i I. apply in_zrange in I. f_equal. apply SA1. lia. }
      assert (Q1' : Permutation (concat c1) (pts wide (P pl) (P pc))) by (rewrite Q1, PW by lia; reflexivity).
      exists a2, n2, b2, o2, (c1 ++ c2). split; [reflexivity|].
      split; [|split; [|split; [|split; [|split]]]].
      * eapply same_out_trans; [eapply same_out_weak; [exact SA2| |]; lia|]. eapply same_out_trans; [eapply same_out_weak; [exact SA1| |]; lia|]. exact W1.
      * eapply same_out_trans; [eapply same_out_weak; [exact SN2| |]; lia|]. eapply same_out_weak; [exact SN1| |]; lia.
      * eapply same_out_trans; [eapply same_out_weak; [exact SB2| |]; lia|]. eapply same_out_trans; [eapply same_out_weak; [exact SB1| |]; lia|]. exact W2.
      * eapply drawn_app; [exact D1|]. replace (pl + Z.of_nat (length c1)) with pc; auto. apply (f_equal (@length Z)) in G1. rewrite !map_length, zrange_length in G1. lia.
      * split; [|split].
        -- rewrite map_app, G1, H1, <- map_app, <- zrange_app by lia. reflexivity.
        -- apply FOP_app; auto. intros c d Ic Id. apply (axes_apart f g); auto. intros p q Ip Iq.
           apply (ranked_apart f wide (P pl) (P pr) (P pl) (P pc) (P pr) RA); try lia.
           ++ apply (Permutation_in _ Q1'). apply in_concat. eauto.
           ++ apply (Permutation_in _ Q2'). apply in_concat. eauto.
        -- apply Forall_app. auto.
      * rewrite concat_app, Q1', Q2', <- pts_app by lia. reflexivity.
Qed.

Lemma decide_ok fuel : forall f g a b spare pl pr out, axes f g -> 0 <= pl < pr -> pr <= n -> pr - pl <= Z.of_nat fuel -> sized bs cb nrb out ->
  ready f g a b spare (P pl) (P pr) -> worked (decide_split sub conv buffer bs parts fuel a b spare pl pr (out, pl)) a b spare out pl pr.
Proof.
  induction fuel as [|fuel IH]; intros f g a b spare pl pr out AX PL PR F SZ RD; [lia|]. cbn [decide_split]. unfold parts at 1 2. rewrite !part_ok by lia. cbn [bind].
  pose proof (P_range pl ltac:(lia)) as B1. pose proof (P_range pr ltac:(lia)) as B2. pose proof (P_lt pl pr ltac:(lia)) as B3.
  pose proof RD as (LA & LB & RA & RB & Sa & Sb & Ss & PT). rewrite !vget_ok by lia. cbn [bind].
  assert (IH' : forall f g a b spare pl' pr' out, axes f g -> 0 <= pl' < pr' -> pr' <= n -> pr' - pl' < pr - pl -> sized bs cb nrb out ->
     ready f g a b spare (P pl') (P pr') -> worked (decide_split sub conv buffer bs parts fuel a b spare pl' pr' (out, pl')) a b spare out pl' pr').
  { intros f0 g0 a0 b0 sp0 pl' pr' out0 H1 H2 H3 H4. apply IH; auto. lia. }
  destruct (qlt _ _).
  - apply (split_ok _ f g); auto.
  - destruct (split_ok (decide_split sub conv buffer bs parts fuel) g f b a spare pl pr out IH') as (b' & a' & sp' & out' & chips & E & S1 & S2 & S3 & D & G & Q); auto.
    { destruct AX as [[-> ->]|[-> ->]]; [right|left]; auto. }
    { split; auto. split; auto. split; auto. split; auto. split; auto. split; auto. split; auto. intros i I. destruct (LB i I) as (O1 & _ & O2). rewrite <- O2. now apply PT. }
    rewrite E. cbn [bind]. exists a', b', sp', out', chips. split; [reflexivity|]. repeat (split; auto). rewrite Q. symmetry. now apply linked_perm.
Qed.
End Rec.
