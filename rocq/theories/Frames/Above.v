(** Ancestors in trees that change. *)
From Coq Require Import List Arith Bool ZArith Lia.
From Verif Require Import Lib.Base Lib.Lists Tree.Model Tree.Spec Tree.Proofs Tree.Trees Tree.Copy Tree.Props.
Import ListNotations.
Open Scope nat_scope.

Section Above.
Context {D : Type}.
Implicit Type h : heap D.

Lemma live_parent h n : live h n <-> exists p, parent h n = Ok p.
Proof.
  split.
  - intros (nd & E). exists (nparent nd). unfold parent. rewrite E. reflexivity.
  - intros (p & E). apply parent_lk in E as (nd & L & _). apply live_lk. eauto.
Qed.
Lemma live_data h n : live h n <-> exists d, data h n = Ok d.
Proof.
  unfold live, data. split.
  - intros (nd & ->). eexists. reflexivity.
  - intros (d & E). destruct (get h n); try discriminate. eauto.
Qed.
Lemma parent_live h n p : parent h n = Ok p -> live h n.
Proof. intros E. apply live_parent. eauto. Qed.

Lemma grown_good h : grown h -> good h.
Proof. intros G. apply reachable_good, grown_reachable, G. Qed.

Lemma above_path h n : grown h -> live h n -> exists l, path h n l /\ forall a, In a l <-> above h a n.
Proof. intros G L. destruct (grown_path h G n L) as (l & P). exists l. split; [exact P|]. exact (path_above h n l P). Qed.

Lemma parent_live_up h n p : grown h -> parent h n = Ok (Some p) -> live h p.
Proof. intros G. apply tree_parent_live. apply grown_reachable, G. Qed.

Lemma above_up h n p : grown h -> parent h n = Ok (Some p) -> above h p n.
Proof. intros G P. econstructor; [exact P|]. constructor. exact (parent_live_up h n p G P). Qed.

Lemma above_cases h a n : above h a n -> a = n \/ exists p, parent h n = Ok (Some p) /\ above h a p.
Proof. destruct 1; eauto. Qed.

Lemma above_live_top h a n : above h a n -> live h a.
Proof. induction 1; auto. Qed.

Lemma above_anti h a b : grown h -> above h a b -> above h b a -> a = b.
Proof.
  intros G A B. destruct (grown_path h G b (above_live h a b A)) as (l & P).
  destruct (path_head h b l P) as (l' & ->).
  pose proof (proj2 (path_above h b _ P a) A) as Ia.
  destruct (path_suffix h b _ P a Ia) as (x & la & E & Pa).
  pose proof (proj2 (path_above h a _ Pa b) B) as Ib.
  pose proof (path_nodup h b _ P) as ND.
  destruct x as [|x xs]; [cbn [app] in E; subst la|].
  - destruct (path_head h a _ Pa) as (? & [= -> _]). reflexivity.
  - cbn [app] in E. injection E as -> ->. inversion ND as [|? ? N _]; subst. exfalso. apply N. apply in_or_app. auto.
Qed.

Lemma above_chain h a b n : above h a n -> above h b n -> above h a b \/ above h b a.
Proof.
  intros A. revert b. induction A as [n L|a p n P A IH]; intros b B.
  - right. exact B.
  - apply above_cases in B as [->|(q & P' & B)]; [left; econstructor; eassumption|].
    apply IH. congruence.
Qed.

Lemma above_root_eq h r n : above h r n -> parent h n = Ok None -> r = n.
Proof. intros A P. apply above_cases in A as [|(p & P' & _)]; congruence. Qed.

Lemma above_roots_eq h r s n : parent h r = Ok None -> parent h s = Ok None -> above h r n -> above h s n -> r = s.
Proof.
  intros R S A B. destruct (above_chain h r s n A B) as [C|C].
  - exact (above_root_eq h r s C S).
  - symmetry. exact (above_root_eq h s r C R).
Qed.

Lemma above_dec h a n : grown h -> live h n -> above h a n \/ ~ above h a n.
Proof.
  intros G L. destruct (above_path h n G L) as (l & _ & E).
  destruct (in_dec Nat.eq_dec a l) as [I|I]; rewrite E in I; auto.
Qed.

(** Nothing on the way up changed. *)
Lemma above_same h h' n : grown h -> live h n ->
  (forall x, above h x n -> parent h' x = parent h x) -> forall a, above h' a n <-> above h a n.
Proof.
  intros G L E a. destruct (grown_path h G n L) as (l & P). revert E. induction P as [n P|n p l P H IH]; intros E.
  - pose proof (E n (above_self h n L)) as En. split; intros A; apply above_cases in A as [->|(q & Q & _)]; try congruence.
    + constructor. exact L.
    + constructor. apply live_parent. exists None. congruence.
  - pose proof (E n (above_self h n L)) as En. pose proof (parent_live_up h n p G P) as Lp.
    assert (E' : forall x, above h x p -> parent h' x = parent h x).
    { intros x A. apply E. econstructor; eassumption. }
    specialize (IH Lp E'). split; intros A; apply above_cases in A as [->|(q & Q & A)].
    + constructor. exact L.
    + econstructor; [exact P|]. apply IH. congruence.
    + constructor. apply live_parent. exists (Some p). congruence.
    + econstructor; [rewrite En; exact P|]. apply IH. congruence.
Qed.

Lemma same_payload_data h h' m : same_payload h h' m -> data h' m = data h m.
Proof.
  unfold same_payload, data. rewrite !get_lk. destruct (lk h m), (lk h' m); cbn [bind]; try tauto.
  intros ->. reflexivity.
Qed.

Lemma grown_set_parent h n p : grown h -> live h n -> live_opt h p -> (forall q, p = Some q -> ~ above h n q) ->
  exists h', set_parent h n p = Ok h' /\ grown h' /\ parent h' n = Ok p /\
    (forall m, m <> n -> parent h' m = parent h m) /\ (forall m, data h' m = data h m) /\
    forall q cs, children h q = Ok cs ->
      children h' q = Ok (if is p (Some q) then n :: remove Nat.eq_dec n cs else remove Nat.eq_dec n cs).
Proof.
  intros G L Lp N. pose proof (grown_reachable h G) as R.
  destruct (tree_calls_defined h (SetParent n p) R (conj L Lp)) as (h' & E). cbn [step] in E.
  destruct (set_parent_moves h n p h' R L Lp E) as (P & Q & S & C).
  exists h'. split; [exact E|]. split.
  { eapply (grown_step h (SetParent n p)); [exact G|split; assumption| |exact E]. cbn [no_cycle]. destruct p; auto. }
  split; [exact P|]. split; [exact Q|]. split; [|exact C].
  intros m. exact (same_payload_data h h' m (S m)).
Qed.

Lemma grown_new h p d : grown h -> live_opt h p ->
  exists h', new_node h p d = Ok (h', length h) /\ grown h' /\ ~ live h (length h) /\
    parent h' (length h) = Ok p /\ data h' (length h) = Ok d /\ children h' (length h) = Ok [] /\
    (forall m, m <> length h -> parent h' m = parent h m /\ data h' m = data h m) /\
    forall q cs, children h q = Ok cs -> children h' q = Ok (if is p (Some q) then length h :: cs else cs).
Proof.
  intros G Lp. destruct (grown_good h G) as (K & V).
  destruct (new_ok _ h K p d V Lp (fun f => f)) as (h' & E & _).
  destruct (new_node_adds h p d h' _ (grown_reachable h G) Lp E) as (A1 & A2 & A3 & (nd & A4 & <-) & A5 & A6).
  exists h'. split; [exact E|]. split; [exact (proj1 (new_grown _ _ _ _ _ E G Lp))|].
  split; [exact A1|]. split; [exact A2|]. split; [unfold data; rewrite A4; reflexivity|]. split; [exact A3|].
  split; [|exact A6]. intros m Hm. destruct (A5 m Hm) as (X & Y). split; [exact X|]. exact (same_payload_data h h' m Y).
Qed.

Lemma grown_destroy h n : grown h -> live h n ->
  exists h', destroy h n = Ok h' /\ grown h' /\ ~ live h' n /\
    (forall m, m <> n -> data h' m = data h m) /\
    (forall m q, m <> n -> parent h m = Ok q -> parent h' m = Ok (if is q (Some n) then None else q)) /\
    (forall m, live h' m <-> live h m /\ m <> n) /\
    forall q cs, q <> n -> children h q = Ok cs -> children h' q = Ok (remove Nat.eq_dec n cs).
Proof.
  intros G L. pose proof (grown_reachable h G) as R.
  destruct (tree_calls_defined h (Destroy n) R L) as (h' & E). cbn [step] in E.
  destruct (destroy_removes h n h' R L E) as (A1 & A2 & A3 & A4).
  assert (A5 : forall m, m <> n -> data h' m = data h m) by (intros m Hm; exact (same_payload_data h h' m (A2 m Hm))).
  exists h'. split; [exact E|]. split; [exact (grown_step h (Destroy n) h' G L I E)|].
  split; [exact A1|]. split; [exact A5|]. split; [exact A3|]. split; [|exact A4].
  intros m. split.
  - intros Lm. assert (Hm : m <> n) by (intros ->; contradiction). split; [|exact Hm].
    apply live_data in Lm as (d & Ed). rewrite A5 in Ed by exact Hm. apply live_data. eauto.
  - intros (Lm & Hm). apply live_data in Lm as (d & Ed). rewrite <- A5 in Ed by exact Hm. apply live_data. eauto.
Qed.

Lemma grown_delete h n : grown h -> live h n ->
  exists h', recursive_delete h n = Ok h' /\ grown h' /\
    (forall m, live h' m <-> live h m /\ ~ above h n m) /\
    (forall m, live h' m -> parent h' m = parent h m /\ data h' m = data h m) /\
    (forall q cs, live h' q -> children h q = Ok cs -> children h' q = Ok (remove Nat.eq_dec n cs)).
Proof.
  intros G L. destruct (recursive_delete_exact h n G L) as (h' & E & G' & A1 & A2 & A3).
  exists h'. split; [exact E|]. split; [exact G'|]. split; [exact A1|]. split; [|exact A3].
  intros m Lm. destruct (A2 m Lm) as (X & Y). split; [exact X|]. exact (same_payload_data h h' m Y).
Qed.

Lemma grown_write h n d : grown h -> live h n ->
  exists h', set_data h n d = Ok h' /\ grown h' /\ data h' n = Ok d /\ (forall m, m <> n -> data h' m = data h m) /\
    (forall m, parent h' m = parent h m) /\ (forall m, children h' m = children h m).
Proof.
  intros G L. pose proof (grown_reachable h G) as R.
  destruct (tree_calls_defined h (SetData n d) R L) as (h' & E). cbn [step] in E.
  exists h'. split; [exact E|]. split; [exact (grown_step h (SetData n d) h' G L I E)|].
  exact (set_data_writes h n d h' R L E).
Qed.

Lemma links h p : grown h -> live h p ->
  exists cs, children h p = Ok cs /\ NoDup cs /\ forall c, In c cs <-> parent h c = Ok (Some p).
Proof. intros G. apply tree_links_agree, grown_reachable, G. Qed.

(** After a move. *)
Lemma moved_above h h' n p : grown h -> grown h' -> live h n -> live_opt h p -> (forall q, p = Some q -> ~ above h n q) ->
  parent h' n = Ok p -> (forall m, m <> n -> parent h' m = parent h m) ->
  (forall m a, live h m -> ~ above h n m -> (above h' a m <-> above h a m)) /\
  (forall m a, above h n m -> (above h' a m <-> (above h n a /\ above h a m) \/ exists q, p = Some q /\ above h a q)).
Proof.
  intros G G' L Lp N P Q.
  assert (Out : forall m a, live h m -> ~ above h n m -> (above h' a m <-> above h a m)).
  { intros m a Lm Nm. apply above_same; auto. intros x A. apply Q. intros ->. contradiction. }
  split; [exact Out|]. intros m a A. induction A as [m Lm|m' pm m Pm A IH].
  - split.
    + intros B. apply above_cases in B as [->|(q & Pq & B)].
      * left. split; constructor; exact L.
      * right. exists q. rewrite P in Pq. injection Pq as ->. split; [reflexivity|]. apply Out; auto.
    + intros [(B1 & B2)|(q & -> & B)].
      * assert (a = m) by (apply above_anti with h; auto). subst a. constructor. apply live_parent. eauto.
      * econstructor; [exact P|]. apply Out; auto.
  - (* the induction names the fixed node [m'] *)
    destruct (Nat.eq_dec m m') as [->|Hm].
    { exfalso. assert (X : above h pm m') by (eapply above_up; eauto).
      assert (pm = m') by (apply above_anti with h; auto). subst pm.
      destruct (above_path h m' G (parent_live _ _ _ Pm)) as (l & Pl & _).
      inversion Pl as [? ?|? p0 l0 P1 Pl0]; subst; [congruence|]. assert (p0 = m') by congruence. subst p0.
      pose proof (path_det h m' _ Pl _ Pl0) as Ed. apply (f_equal (@length nat)) in Ed. cbn [length] in Ed. lia. }
    specialize (IH L N P Q Out).
    split.
    + intros B. apply above_cases in B as [->|(q & Pq & B)].
      * left. split; [econstructor; eassumption|]. constructor. eapply parent_live; eauto.
      * rewrite (Q m Hm), Pm in Pq. injection Pq as <-. apply IH in B as [(B1 & B2)|B]; [left|right; exact B].
        split; [exact B1|]. econstructor; eassumption.
    + intros B. assert (Z : a = m \/ (above h m' a /\ above h a pm) \/ exists q, p = Some q /\ above h a q).
      { destruct B as [(B1 & B2)|B]; [|auto]. apply above_cases in B2 as [->|(q & Pq & B2)]; [auto|].
        right. left. split; [exact B1|]. congruence. }
      destruct Z as [->|Z].
      * constructor. apply live_parent. exists (Some pm). rewrite Q by exact Hm. exact Pm.
      * econstructor; [rewrite Q by exact Hm; exact Pm|]. apply IH. exact Z.
Qed.
End Above.
