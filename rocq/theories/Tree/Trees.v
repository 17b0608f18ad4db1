From Verif Require Import Lib.Base Lib.Lists Tree.Model Tree.Spec Tree.Proofs.
From Coq Require Import List Arith Bool ZArith Lia.
Import ListNotations.
Open Scope nat_scope.

Section Trees.
Context {D : Type}.
Implicit Type h : heap D.

(** Induction over trees with a hypothesis for every subtree. *)
Section Ind.
Variable P : tree -> Prop.
Hypothesis H : forall n ts, Forall P ts -> P (T n ts).
Fixpoint tree_ind' (t : tree) : P t :=
  match t with
  | T n ts => H n ts ((fix go ts : Forall P ts :=
      match ts with
      | [] => Forall_nil P
      | t :: ts => Forall_cons t (tree_ind' t) (go ts)
      end) ts)
  end.
End Ind.

Definition fsize (ts : list tree) : nat := fold_right (fun t n => tsize t + n) 0 ts.

Lemma tsize_eq n ts : tsize (T n ts) = S (fsize ts).
Proof. reflexivity. Qed.

Lemma fsize_cons t ts : fsize (t :: ts) = tsize t + fsize ts.
Proof. reflexivity. Qed.

Lemma fsize_app a b : fsize (a ++ b) = fsize a + fsize b.
Proof. induction a as [|t a IH]; [reflexivity|]. cbn [app]. rewrite !fsize_cons. lia. Qed.

Lemma tsize_pos t : 1 <= tsize t.
Proof. destruct t. rewrite tsize_eq. lia. Qed.

(** All nodes of a tree. *)
Lemma ids_length t : length (ids t) = tsize t.
Proof.
  induction t as [n ts IH] using tree_ind'. cbn [ids length]. rewrite tsize_eq. f_equal.
  induction IH as [|t ts E _ IH]; [reflexivity|]. cbn [flat_map]. rewrite app_length, fsize_cons. lia.
Qed.

Lemma siblings_inv h : forall fuel o l, siblings fuel h o = Ok l -> seg h o l None /\ length l < fuel.
Proof.
  induction fuel as [|fuel IH]; intros o l H; [discriminate|]. cbn [siblings] in H.
  destruct o as [n|].
  - rewrite get_lk in H. destruct (lk h n) as [nd|] eqn:L; [|discriminate]. cbn [bind] in H.
    destruct (siblings fuel h (nnext nd)) as [l'| |] eqn:S; cbn [bind] in H; try discriminate.
    injection H as <-. destruct (IH _ _ S) as [S1 S2]. cbn [seg length]. split; [|lia].
    split; [reflexivity|]. eauto.
  - injection H as <-. cbn [seg length]. split; [reflexivity|lia].
Qed.

Lemma children_inv h n l : children h n = Ok l ->
  exists nd, lk h n = Some nd /\ seg h (nfirst nd) l None /\ length l < S (length h).
Proof.
  unfold children. rewrite get_lk. destruct (lk h n) as [nd|]; [|discriminate]. cbn [bind].
  intros H. destruct (siblings_inv h _ _ _ H). eauto.
Qed.

Lemma trees_at_ids h cs ts : trees_at h cs ts -> map tid ts = cs.
Proof.
  induction 1 as [|c cs t ts H _ IH]; [reflexivity|]. cbn [map]. rewrite IH.
  inversion H; subst. reflexivity.
Qed.

Lemma trees_at_forall2 h cs ts : trees_at h cs ts <-> Forall2 (tree_at h) cs ts.
Proof.
  split.
  - induction 1; constructor; auto.
  - induction 1; constructor; auto.
Qed.

Lemma tree_at_inv h n n' ts : tree_at h n (T n' ts) -> n' = n /\ exists cs, children h n = Ok cs /\ trees_at h cs ts.
Proof. inversion 1; subst. eauto. Qed.

Lemma NoDup_app_intro {A} (a b : list A) :
  NoDup a -> NoDup b -> (forall x, In x a -> In x b -> False) -> NoDup (a ++ b).
Proof.
  intros Na Nb H. induction Na as [|x a N _ IH]; [exact Nb|]. cbn [app]. constructor.
  - intros I. apply in_app_or in I as [I|I]; [contradiction|]. exact (H x (or_introl eq_refl) I).
  - apply IH. intros y I. apply H. right. exact I.
Qed.

(** ** Existence *)

Lemma tree_exists_path h : good h ->
  forall k n l, path h n l -> length h - length l < k -> exists t, tree_at h n t.
Proof.
  intros (K & V). induction k as [|k IH]; intros n l P Hk; [lia|].
  destruct (path_head h n l P) as (l' & El).
  destruct (path_live h n l P n) as (nd & L); [rewrite El; left; reflexivity|].
  pose proof (inv_children _ h K n nd V L) as C.
  assert (A : forall cs, incl cs (K n) -> exists ts, trees_at h cs ts).
  { induction cs as [|c cs IHc]; intros I; [exists []; constructor|].
    destruct IHc as (ts & Ts); [intros x J; apply I; right; exact J|].
    destruct (inv_down _ h K V n nd c L (I c (or_introl eq_refl))) as (_ & cn & Lc & Pc).
    assert (Pcl : path h c (c :: l)) by (econstructor; [apply parent_lk; eauto|exact P]).
    pose proof (path_length h c _ Pcl) as Ln. cbn [length] in Ln.
    destruct (IH c (c :: l) Pcl) as (t & Tt); [cbn [length]; lia|].
    exists (t :: ts). constructor; assumption. }
  destruct (A (K n) (incl_refl _)) as (ts & Ts).
  exists (T n ts). econstructor; eassumption.
Qed.

Lemma tree_exists h n : grown h -> live h n -> exists t, tree_at h n t.
Proof.
  intros G L. destruct (grown_path h G n L) as (l & P).
  eapply (tree_exists_path h); [apply reachable_good, grown_reachable, G|exact P|apply Nat.lt_succ_diag_r].
Qed.

(** The nodes of the tree are those below its root, each once. *)
Lemma tree_path h t : good h -> forall n l, path h n l -> tree_at h n t ->
  forall m, In m (ids t) -> exists a, path h m (a ++ l).
Proof.
  intros (K & V). induction t as [n' ts IH] using tree_ind'. intros n l P Ht m I.
  apply tree_at_inv in Ht as (-> & cs & C & Ts). cbn [ids] in I.
  destruct I as [<-|I]; [exists []; exact P|].
  apply in_flat_map in I as (t & It & Im).
  destruct (path_live h n l P n) as (nd & L).
  { destruct (path_head h n l P) as (l' & ->). left. reflexivity. }
  rewrite (inv_children _ h K n nd V L) in C. injection C as <-.
  assert (X : exists c, In c (K n) /\ tree_at h c t).
  { apply trees_at_forall2 in Ts.
    clear - It Ts. induction Ts as [|c t0 cs ts H _ IH]; [destruct It|].
    destruct It as [<-|It]; [exists c; split; [left; reflexivity|exact H]|].
    destruct (IH It) as (c' & I' & H'). exists c'. split; [right; exact I'|exact H']. }
  destruct X as (c & Ic & Htc).
  destruct (inv_down _ h K V n nd c L Ic) as (_ & cn & Lc & Pc).
  rewrite Forall_forall in IH.
  destruct (IH t It c (c :: l)) with (m := m) as (a & Pm); auto.
  { econstructor; [apply parent_lk; eauto|exact P]. }
  exists (a ++ [c]). rewrite <- app_assoc. exact Pm.
Qed.

Lemma tree_nodup h t : good h -> forall n l, path h n l -> tree_at h n t -> NoDup (ids t).
Proof.
  intros G. pose proof G as (K & V). induction t as [n' ts IH] using tree_ind'. intros n l P Ht.
  pose proof Ht as Ht'.
  apply tree_at_inv in Ht as (-> & cs & C & Ts). cbn [ids].
  destruct (path_live h n l P n) as (nd & L).
  { destruct (path_head h n l P) as (l' & ->). left. reflexivity. }
  rewrite (inv_children _ h K n nd V L) in C. injection C as <-.
  assert (Pc : forall c, In c (K n) -> path h c (c :: l)).
  { intros c I. destruct (inv_down _ h K V n nd c L I) as (_ & cn & Lc & Pc).
    econstructor; [apply parent_lk; eauto|exact P]. }
  pose proof (inv_nodup _ _ _ V n nd L) as ND.
  apply trees_at_forall2 in Ts.
  assert (Under : forall c t m, In c (K n) -> tree_at h c t -> In m (ids t) ->
            exists a, path h m (a ++ c :: l)).
  { intros c t m Ic Hc I. exact (tree_path h t G c (c :: l) (Pc c Ic) Hc m I). }
  constructor.
  - intros I. apply in_flat_map in I as (t & It & Im).
    assert (X : exists c, In c (K n) /\ tree_at h c t).
    { clear - It Ts. induction Ts as [|c t0 cs ts H _ IH]; [destruct It|].
      destruct It as [<-|It]; [exists c; split; [left; reflexivity|exact H]|].
      destruct (IH It) as (c' & I' & H'). exists c'. split; [right; exact I'|exact H']. }
    destruct X as (c & Ic & Hc). destruct (Under c t n Ic Hc Im) as (a & Pn).
    pose proof (path_det h n _ P _ Pn) as E. apply (f_equal (@length nat)) in E.
    rewrite app_length in E. cbn [length] in E. lia.
  - clear Ht' V L. revert Ts ND Pc Under IH. generalize (K n) as cs.
    intros cs Ts. induction Ts as [|c t cs ts H Ts IHl]; intros ND Pc Under IH; [constructor|].
    cbn [flat_map]. inversion ND as [|? ? Nc ND']; subst.
    inversion IH as [|? ? IHt IH']; subst.
    apply NoDup_app_intro.
    + exact (IHt c (c :: l) (Pc c (or_introl eq_refl)) H).
    + apply IHl; auto.
      * intros c' I. apply Pc. right. exact I.
      * intros c' t' m I. apply Under. right. exact I.
    + intros m I1 I2. apply in_flat_map in I2 as (t' & It' & Im).
      assert (X : exists c', In c' cs /\ tree_at h c' t').
      { clear - It' Ts. induction Ts as [|c0 t0 cs ts H _ IH]; [destruct It'|].
        destruct It' as [<-|It]; [exists c0; split; [left; reflexivity|exact H]|].
        destruct (IH It) as (c' & I' & H'). exists c'. split; [right; exact I'|exact H']. }
      destruct X as (c' & Ic' & Hc').
      destruct (Under c t m (or_introl eq_refl) H I1) as (a & P1).
      destruct (Under c' t' m (or_intror Ic') Hc' Im) as (a' & P2).
      pose proof (path_det h m _ P1 _ P2) as E.
      assert (c = c').
      { assert (E' : rev (c :: l) ++ rev a = rev (c' :: l) ++ rev a')
          by (rewrite <- !rev_app_distr, E; reflexivity).
        cbn [rev] in E'. rewrite <- !app_assoc in E'. apply app_inv_head in E'. cbn [app] in E'.
        congruence. }
      subst c'. contradiction.
Qed.

Lemma tree_fits h n t : grown h -> tree_at h n t -> tsize t <= length h.
Proof.
  intros G Ht.
  pose proof (reachable_good h (grown_reachable h G)) as Gd.
  assert (Ln : live h n).
  { destruct t as [n' ts]. apply tree_at_inv in Ht as (_ & cs & C & _).
    apply children_inv in C as (nd & L & _). apply live_lk. eauto. }
  destruct (grown_path h G n Ln) as (l & P).
  rewrite <- ids_length, <- (seq_length (length h) 0).
  apply NoDup_incl_length; [exact (tree_nodup h t Gd n l P Ht)|].
  intros m I. destruct (tree_path h t Gd n l P Ht m I) as (a & Pm).
  destruct (path_live h m _ Pm m) as (nd & L).
  { destruct (path_head h m _ Pm) as (l' & ->). left. reflexivity. }
  apply in_seq. pose proof (lk_lt _ _ _ L). lia.
Qed.

(** ** Counting *)

Lemma num_ok h t : forall n fuel, tree_at h n t -> tsize t <= fuel ->
  num_offsprings_fuel fuel h n = Ok (tsize t - 1).
Proof.
  induction t as [n' ts IH] using tree_ind'. intros n fuel Ht F.
  apply tree_at_inv in Ht as (-> & cs & C & Ts). rewrite tsize_eq in *.
  destruct fuel as [|fuel]; [lia|]. cbn [num_offsprings_fuel].
  apply children_inv in C as (nd & L & S & Lc). rewrite get_lk, L. cbn [bind].
  replace (Datatypes.S (fsize ts) - 1) with (0 + fsize ts) by lia.
  assert (G : forall cs ts k o acc, Forall2 (tree_at h) cs ts ->
     Forall (fun t => forall n fuel, tree_at h n t -> tsize t <= fuel ->
        num_offsprings_fuel fuel h n = Ok (tsize t - 1)) ts ->
     seg h o cs None -> length cs < k -> fsize ts <= fuel ->
     count_children (num_offsprings_fuel fuel h) h k o acc = Ok (acc + fsize ts)).
  { clear. intros cs ts k o acc H. revert k o acc.
    induction H as [|c t cs ts Ht H IH]; intros k o acc HF S Lk F; cbn [length] in Lk;
      (destruct k as [|k]; [lia|]); cbn [count_children seg] in *.
    - subst o. rewrite Nat.add_0_r. reflexivity.
    - destruct S as (-> & cd & Lc & S). rewrite fsize_cons in F. pose proof (tsize_pos t).
      inversion HF as [|? ? Pt HF']; subst.
      rewrite (Pt c fuel Ht) by lia. cbn [bind]. rewrite get_lk, Lc. cbn [bind].
      rewrite IH by (auto; lia). rewrite fsize_cons. f_equal. lia. }
  apply trees_at_forall2 in Ts.
  apply (G cs ts); auto. lia.
Qed.

(** ** Traversals *)

Lemma pre_ok h : forall fuel c cs ts,
  trees_at h (c :: cs) ts -> seg h (Some c) (c :: cs) None -> fsize ts <= fuel ->
  pre_order_fuel fuel h c = Ok (flat_map pre_events ts).
Proof.
  induction fuel as [|fuel IH]; intros c cs ts Ts S F.
  - inversion Ts as [|? ? t ts' Ht Ts']; subst. rewrite fsize_cons in F.
    pose proof (tsize_pos t). lia.
  - inversion Ts as [|? ? t ts' Ht Ts']; subst. destruct t as [n sub].
    apply tree_at_inv in Ht as (-> & ks & C & Tk).
    apply children_inv in C as (nd & L & Sk & _).
    cbn [seg] in S. destruct S as (_ & nd' & L' & S). replace nd' with nd in S by congruence.
    rewrite fsize_cons, tsize_eq in F.
    cbn [pre_order_fuel flat_map]. rewrite get_lk, L. cbn [bind].
    assert (Sib : match nnext nd with
             | None => Ok []
             | Some s => pre_order_fuel fuel h s
             end = Ok (flat_map pre_events ts')).
    { destruct cs as [|s cs].
      - cbn [seg] in S. rewrite S. inversion Ts'; subst. reflexivity.
      - pose proof S as S0. cbn [seg] in S. destruct S as (E & _). rewrite E in *.
        apply (IH s cs); [exact Ts'|exact S0|lia]. }
    destruct ks as [|k ks].
    + cbn [seg] in Sk. rewrite Sk. inversion Tk; subst. cbn [bind].
      rewrite Sib. cbn [bind]. reflexivity.
    + pose proof Sk as Sk0. cbn [seg] in Sk. destruct Sk as (E & _). rewrite E in *.
      rewrite (IH k ks sub Tk Sk0) by lia. cbn [bind]. rewrite Sib. cbn [bind].
      cbn [pre_events]. inversion Tk; subst. cbn [app]. rewrite <- !app_assoc. reflexivity.
Qed.

Lemma levels_more k : forall ts j, fsize ts <= k -> fsize ts <= j -> levels k ts = levels j ts.
Proof.
  induction k as [|k IH]; intros ts j Hk Hj.
  - destruct ts as [|t ts]; [destruct j; reflexivity|].
    rewrite fsize_cons in Hk. pose proof (tsize_pos t). lia.
  - destruct ts as [|t ts]; [destruct j; reflexivity|].
    destruct j as [|j]; [rewrite fsize_cons in Hj; pose proof (tsize_pos t); lia|].
    cbn [levels]. f_equal.
    assert (E : fsize (flat_map tsub (t :: ts)) + length (t :: ts) = fsize (t :: ts)).
    { clear. induction (t :: ts) as [|u us IH]; [reflexivity|].
      cbn [flat_map length]. rewrite fsize_app, fsize_cons. destruct u. rewrite tsize_eq. cbn [tsub]. lia. }
    cbn [length] in E. apply IH; lia.
Qed.

Lemma level_unfold ts : ts <> [] ->
  levels (fsize ts) ts = map tid ts ++ levels (fsize (flat_map tsub ts)) (flat_map tsub ts).
Proof.
  intros N. destruct ts as [|t ts]; [congruence|].
  destruct (fsize (t :: ts)) as [|k] eqn:E.
  { rewrite fsize_cons in E. pose proof (tsize_pos t). lia. }
  cbn [levels]. f_equal. apply levels_more; [|lia].
  assert (E' : fsize (flat_map tsub (t :: ts)) + length (t :: ts) = fsize (t :: ts)).
  { clear. induction (t :: ts) as [|u us IH]; [reflexivity|].
    cbn [flat_map length]. rewrite fsize_app, fsize_cons. destruct u. rewrite tsize_eq. cbn [tsub]. lia. }
  cbn [length] in E'. lia.
Qed.

Lemma bfs_ok h : forall fuel a b,
  Forall (fun t => tree_at h (tid t) t) a -> Forall (fun t => tree_at h (tid t) t) b ->
  fsize a + fsize b < fuel ->
  bfs_loop fuel h (map tid (a ++ b)) =
  Ok (map tid a ++ levels (fsize (b ++ flat_map tsub a)) (b ++ flat_map tsub a)).
Proof.
  induction fuel as [|fuel IH]; intros a b Ha Hb F; [lia|].
  assert (Step : forall t a b, Forall (fun t => tree_at h (tid t) t) (t :: a) ->
     Forall (fun t => tree_at h (tid t) t) b -> fsize (t :: a) + fsize b < S fuel ->
     bfs_loop (S fuel) h (map tid ((t :: a) ++ b)) =
     Ok (map tid (t :: a) ++ levels (fsize (b ++ flat_map tsub (t :: a))) (b ++ flat_map tsub (t :: a)))).
  { clear a b Ha Hb F. intros t a b Ha Hb F.
    inversion Ha as [|? ? Ht Ha']; subst. destruct t as [n ts]. cbn [tid] in Ht.
    apply tree_at_inv in Ht as (_ & cs & C & Ts).
    cbn [app map bfs_loop tid]. rewrite C. cbn [bind].
    rewrite <- (trees_at_ids h cs ts Ts), <- map_app, <- app_assoc.
    rewrite fsize_cons, tsize_eq in F.
    rewrite (IH a (b ++ ts)); [|exact Ha'| |rewrite fsize_app; lia].
    - cbn [bind map tid flat_map tsub]. rewrite <- app_assoc. reflexivity.
    - apply Forall_app. split; [exact Hb|].
      apply trees_at_forall2 in Ts. clear - Ts.
      induction Ts as [|c t cs ts Ht _ IH]; [constructor|]. constructor; [|exact IH].
      inversion Ht; subst. exact Ht. }
  destruct a as [|t a]; [|apply Step; assumption].
  destruct b as [|t b]; [reflexivity|].
  cbn [app flat_map map]. rewrite app_nil_r.
  rewrite level_unfold by discriminate.
  pose proof (Step t b [] Hb (Forall_nil _)) as X. rewrite app_nil_r in X.
  cbn [fsize fold_right] in F. cbn [app] in X.
  change (tid t :: map tid b) with (map tid (t :: b)). rewrite X; [reflexivity|].
  change (fold_right (fun t n => tsize t + n) 0 b) with (fsize b) in F. rewrite fsize_cons. cbn [fsize fold_right]. lia.
Qed.
End Trees.
