(** Membership, and adding, moving and deleting frames. *)
From Coq Require Import List Arith Bool ZArith Lia Ascii String.
From Verif Require Import Lib.Base Lib.Lists Lib.Str Tree.Model Tree.Spec Tree.Proofs Tree.Trees Tree.Copy Tree.Props
  Frames.Model Frames.Spec Frames.Above.
Import ListNotations.
Open Scope nat_scope.

Section Store.
Context {T : Type}.
Implicit Types (h : heap (frame T)) (st : store T).

Lemma member_live st n : member st n -> live (sheap st) n.
Proof. intros (r & _ & A). exact (above_live _ _ _ A). Qed.

Lemma member_down st a n : member st a -> above (sheap st) a n -> member st n.
Proof. intros (r & I & A) B. exists r. split; [exact I|]. exact (above_trans _ _ _ _ A B). Qed.

Lemma member_up st a n : sound st -> member st n -> above (sheap st) a n -> member st a.
Proof.
  intros S (r & I & A) B. exists r. split; [exact I|].
  destruct (above_chain _ _ _ _ A B) as [C|C]; [exact C|].
  rewrite (above_root_eq _ _ _ C (sound_roots st S r I)). constructor. exact (above_live_top _ _ _ A).
Qed.

Lemma member_root st n : member st n -> parent (sheap st) n = Ok None -> In n (sroots st).
Proof. intros (r & I & A) P. rewrite <- (above_root_eq _ _ _ A P). exact I. Qed.

Lemma root_member st r : sound st -> In r (sroots st) -> member st r.
Proof. intros S I. exists r. split; [exact I|]. constructor. exact (parent_live _ _ _ (sound_roots st S r I)). Qed.

Lemma member_loop_ok st : sound st -> forall n, live (sheap st) n ->
  forall l, exists b, member_loop (sheap st) l n = Ok b /\ (b = true <-> exists r, In r l /\ above (sheap st) r n).
Proof.
  intros S n L. induction l as [|r l (b & E & Hb)].
  - exists false. split; [reflexivity|]. split; [discriminate|]. intros (r & [] & _).
  - cbn [member_loop]. destruct (Nat.eqb_spec r n) as [->|Hr].
    + exists true. split; [reflexivity|]. split; [|reflexivity]. intros _. exists n. split; [left; reflexivity|constructor; exact L].
    + destruct (is_ancestor_of_correct (sheap st) r n (sound_heap st S) L) as (c & -> & Hc). cbn [bind]. destruct c.
      * exists true. split; [reflexivity|]. split; [|reflexivity]. intros _. exists r. split; [left; reflexivity|]. apply Hc. reflexivity.
      * exists b. split; [exact E|]. rewrite Hb. split; intros (x & I & A).
        -- exists x. split; [right; exact I|exact A].
        -- destruct I as [<-|I]; [|exists x; auto]. assert (false = true) by (apply Hc; auto). discriminate.
Qed.

Lemma is_member_ok st n : sound st -> live (sheap st) n ->
  exists b, fs_is_member st (Some n) = Ok b /\ (b = true <-> member st n).
Proof. intros S L. exact (member_loop_ok st S n L (sroots st)). Qed.

Lemma member_dec st n : sound st -> live (sheap st) n -> member st n \/ ~ member st n.
Proof. intros S L. destruct (is_member_ok st n S L) as ([|] & _ & H); [left; apply H; reflexivity|right; rewrite <- H; discriminate]. Qed.

Lemma name_live h n : live h n -> exists x, node_name h n = Ok x.
Proof. intros L. apply live_data in L as (d & E). exists (fname d). unfold node_name. rewrite E. reflexivity. Qed.

Lemma name_data h h' n : data h' n = data h n -> node_name h' n = node_name h n.
Proof. unfold node_name. intros ->. reflexivity. Qed.

Lemma named_ok h x cs : (forall c, In c cs -> live h c) ->
  exists r, named h cs x = Ok r /\
    match r with
    | Some c => In c cs /\ node_name h c = Ok x
    | None => forall c, In c cs -> node_name h c <> Ok x
    end.
Proof.
  induction cs as [|c cs IH]; intros A; cbn [named].
  - exists None. split; [reflexivity|]. intros c [].
  - destruct (name_live h c (A c (or_introl eq_refl))) as (y & E). rewrite E. cbn [bind].
    destruct (str_eqb y x) eqn:Q.
    + apply str_eqb_spec in Q as ->. exists (Some c). split; [reflexivity|]. split; [left; reflexivity|exact E].
    + apply str_eqb_false in Q. destruct IH as (r & Er & Hr); [intros d I; apply A; right; exact I|].
      exists r. split; [exact Er|]. destruct r as [d|].
      * split; [right|]; tauto.
      * intros d [<-|I]; [congruence|auto].
Qed.

Lemma unique_ok st x p : sound st -> member_opt st p ->
  (assert_unique st x p = Ok tt /\ ~ taken st x p) \/ (assert_unique st x p = Throw LogicErr /\ taken st x p).
Proof.
  intros S M. unfold assert_unique.
  assert (X : exists cs, match p with None => Ok (sroots st) | Some p => children (sheap st) p end = Ok cs /\
            forall c, In c cs <-> member st c /\ parent (sheap st) c = Ok p).
  { destruct p as [p|].
    - cbn [member_opt] in M. destruct (links (sheap st) p (sound_heap st S) (member_live _ _ M)) as (cs & E & _ & H).
      exists cs. split; [exact E|]. intros c. rewrite H. split; [|tauto]. intros P. split; [|exact P].
      apply (member_down st p c M). exact (above_up _ _ _ (sound_heap st S) P).
    - exists (sroots st). split; [reflexivity|]. intros c. split.
      + intros I. split; [exact (root_member st c S I)|exact (sound_roots st S c I)].
      + intros (C & P). exact (member_root st c C P). }
  destruct X as (cs & -> & H). cbn [bind].
  destruct (named_ok (sheap st) x cs) as (r & -> & Hr).
  { intros c I. apply H in I as (M' & _). exact (member_live _ _ M'). }
  cbn [bind]. destruct r as [c|].
  - right. split; [reflexivity|]. destruct Hr as (I & E). apply H in I as (Mc & Pc). exists c. auto.
  - left. split; [reflexivity|]. intros (c & Mc & Pc & E). apply (Hr c); [|exact E]. apply H. auto.
Qed.

Lemma check_ok st p : sound st -> live_opt (sheap st) p ->
  (check_parent st p = Ok tt /\ member_opt st p) \/ (check_parent st p = Throw LogicErr /\ ~ member_opt st p).
Proof.
  intros S L. destruct p as [p|]; cbn [check_parent member_opt live_opt] in *; [|left; split; [reflexivity|exact I]].
  destruct (is_member_ok st p S L) as ([|] & -> & H); cbn [bind].
  - left. split; [reflexivity|]. apply H. reflexivity.
  - right. split; [reflexivity|]. rewrite <- H. discriminate.
Qed.

(** ** The same frames in another heap *)

Lemma members_same st h' : sound st -> grown h' ->
  (forall m, member st m -> parent h' m = parent (sheap st) m) ->
  (forall m p, member st p -> parent h' m = Ok (Some p) -> parent (sheap st) m = Ok (Some p)) ->
  sound (Store h' (sroots st)) /\ forall m, member (Store h' (sroots st)) m <-> member st m.
Proof.
  intros S G' Up Down. pose proof (sound_heap st S) as G. split.
  - constructor; cbn [sheap sroots]; [exact G'|exact (sound_nodup st S)|].
    intros r I. rewrite (Up r (root_member st r S I)). exact (sound_roots st S r I).
  - intros m. split.
    + intros (r & I & A). cbn [sheap sroots] in *. pose proof (root_member st r S I) as Mr.
      induction A as [r Lr|r p m P A IH]; [exact Mr|].
      specialize (IH I Mr). apply (member_down st p m IH). exact (above_up _ _ _ G (Down m p IH P)).
    + intros M. pose proof M as (r & I & A). exists r. split; [exact I|]. cbn [sheap].
      apply (above_same (sheap st) h' m); [exact G|exact (member_live _ _ M)| |exact A].
      intros x B. apply Up. exact (member_up st x m S M B).
Qed.

(** ** Moving a node, whether or not it belongs to the store *)

Lemma erase_in n m l : NoDup l -> (In m (erase n l) <-> In m l /\ m <> n).
Proof.
  induction l as [|x l IH]; intros ND; cbn [erase]; [cbn [In]; tauto|].
  inversion ND as [|? ? N ND']; subst. destruct (Nat.eqb_spec x n) as [->|H].
  - cbn [In]. split; [intros I; split; [auto|intros ->; contradiction]|]. intros ([->|I] & X); [contradiction|exact I].
  - cbn [In]. rewrite IH by exact ND'. split; [intros [->|(I & X)]; auto|]. intros ([->|I] & X); auto.
Qed.

Lemma erase_nodup n l : NoDup l -> NoDup (erase n l).
Proof.
  induction l as [|x l IH]; intros ND; cbn [erase]; [exact ND|].
  inversion ND as [|? ? N ND']; subst. destruct (Nat.eqb x n); [exact ND'|].
  constructor; [|auto]. rewrite erase_in by exact ND'. tauto.
Qed.

Lemma erase_absent n l : ~ In n l -> erase n l = l.
Proof.
  induction l as [|x l IH]; intros N; cbn [erase]; [reflexivity|].
  destruct (Nat.eqb_spec x n) as [->|]; [exfalso; apply N; left; reflexivity|].
  f_equal. apply IH. intros I. apply N. right. exact I.
Qed.

Definition roots_after st n (p : option nat) : list nat :=
  match p with None => erase n (sroots st) ++ [n] | Some _ => erase n (sroots st) end.

Lemma roots_after_in st n p : NoDup (sroots st) ->
  forall r, In r (roots_after st n p) <-> (In r (sroots st) /\ r <> n) \/ (p = None /\ r = n).
Proof.
  intros ND r. unfold roots_after. destruct p as [q|].
  - rewrite erase_in by exact ND. intuition discriminate.
  - rewrite in_app_iff, erase_in by exact ND. cbn [In]. intuition auto.
Qed.

Lemma move_ok st n p : sound st -> live (sheap st) n -> member_opt st p ->
  (forall q, p = Some q -> ~ above (sheap st) n q) ->
  exists h', set_parent (sheap st) n p = Ok h' /\ sound (Store h' (roots_after st n p)) /\
    (forall m, member (Store h' (roots_after st n p)) m <-> member st m \/ above (sheap st) n m) /\
    parent h' n = Ok p /\ (forall m, m <> n -> parent h' m = parent (sheap st) m) /\
    (forall m, data h' m = data (sheap st) m) /\
    (forall q cs, children (sheap st) q = Ok cs ->
      children h' q = Ok (if is p (Some q) then n :: remove Nat.eq_dec n cs else remove Nat.eq_dec n cs)).
Proof.
  intros S L M N. pose proof (sound_heap st S) as G.
  assert (Lp : live_opt (sheap st) p) by (destruct p; [exact (member_live _ _ M)|exact I]).
  destruct (grown_set_parent (sheap st) n p G L Lp N) as (h' & E & G' & P & Q & Dt & Ch).
  destruct (moved_above (sheap st) h' n p G G' L Lp N P Q) as (Out & In_).
  pose proof (roots_after_in st n p (sound_nodup st S)) as RA.
  exists h'. split; [exact E|]. split; [|split; [|auto]].
  - constructor; cbn [sheap sroots]; [exact G'| |].
    + unfold roots_after. destruct p; [apply erase_nodup, (sound_nodup st S)|].
      apply NoDup_app_intro; [apply erase_nodup, (sound_nodup st S)|repeat constructor; auto|].
      intros x I1 [<-|[]]. apply erase_in in I1; [tauto|exact (sound_nodup st S)].
    + intros r I. apply RA in I as [(I & Hr)|(-> & ->)]; [|exact P].
      rewrite Q by exact Hr. exact (sound_roots st S r I).
  - (* a root other than [n] cannot be below [n] *)
    assert (Rt : forall r, In r (sroots st) -> r <> n -> ~ above (sheap st) n r).
    { intros r I Hr A. apply Hr. symmetry. exact (above_root_eq _ _ _ A (sound_roots st S r I)). }
    intros m. split.
    + intros (r & I & A). cbn [sheap sroots] in *.
      pose proof (above_live _ _ _ A) as Lm'.
      assert (Lm : live (sheap st) m).
      { apply live_data in Lm' as (d & Ed). apply live_data. exists d. rewrite <- Dt. exact Ed. }
      destruct (above_dec (sheap st) n m G Lm) as [B|B]; [right; exact B|left].
      rewrite Out in A by assumption. apply RA in I as [(I & Hr)|(-> & ->)]; [exists r; auto|contradiction].
    + intros H.
      assert (Lm : live (sheap st) m) by (destruct H as [H|H]; [exact (member_live _ _ H)|exact (above_live _ _ _ H)]).
      destruct (above_dec (sheap st) n m G Lm) as [B|B].
      * destruct p as [q|].
        -- cbn [member_opt] in M. destruct M as (r & I & A).
           assert (r <> n) by (intros ->; exact (N q eq_refl A)).
           exists r. cbn [sheap sroots]. split; [apply RA; auto|]. apply In_; [exact B|]. right. exists q. auto.
        -- exists n. cbn [sheap sroots]. split; [apply RA; auto|]. apply In_; [exact B|]. left. split; [constructor; exact L|exact B].
      * destruct H as [(r & I & A)|H]; [|contradiction].
        assert (r <> n) by (intros ->; contradiction).
        exists r. cbn [sheap sroots]. split; [apply RA; auto|]. apply Out; assumption.
Qed.

(** A node outside the store is not above a frame of the store. *)
Lemma outside_above st n q : sound st -> member st q -> ~ member st n -> ~ above (sheap st) n q.
Proof. intros S M N A. apply N. exact (member_up st n q S M A). Qed.

Lemma add_node_ok st n p : sound st -> live (sheap st) n -> live_opt (sheap st) p ->
  (fs_add_node st (Some n) p = Throw LogicErr /\
     (member st n \/ node_name (sheap st) n = Ok [] \/ ~ member_opt st p \/
      exists x, node_name (sheap st) n = Ok x /\ taken st x p)) \/
  (~ member st n /\ member_opt st p /\ (forall q, p = Some q -> ~ above (sheap st) n q) /\
   (exists x, node_name (sheap st) n = Ok x /\ x <> [] /\ ~ taken st x p) /\
   fs_add_node st (Some n) p = (h <- set_parent (sheap st) n p ;; Ok (Store h (roots_after st n p)))).
Proof.
  intros S L Lp. unfold fs_add_node. cbn [not_null bind].
  destruct (is_member_ok st n S L) as (b & -> & Hb). cbn [bind]. destruct b.
  { left. split; [reflexivity|]. left. apply Hb. reflexivity. }
  assert (Nm : ~ member st n) by (rewrite <- Hb; discriminate).
  destruct (name_live (sheap st) n L) as (x & Ex). rewrite Ex. cbn [bind].
  destruct (str_eqb x []) eqn:Q.
  { apply str_eqb_spec in Q as ->. left. auto. }
  apply str_eqb_false in Q.
  destruct (check_ok st p S Lp) as [(-> & Mp)|(-> & Mp)]; cbn [bind]; [|left; auto].
  destruct (unique_ok st x p S Mp) as [(-> & U)|(-> & U)]; cbn [bind]; [|left; split; [reflexivity|]; right; right; right; eauto].
  right. split; [exact Nm|]. split; [exact Mp|]. split.
  { intros q ->. exact (outside_above st n q S Mp Nm). }
  split; [exists x; auto|]. unfold roots_after. rewrite erase_absent.
  - destruct p; reflexivity.
  - intros I. apply Nm. exact (root_member st n S I).
Qed.

(** ** Names stay unique *)

Lemma apart_kept h h' a b : kept h h' a -> kept h h' b -> apart h a b -> apart h' a b.
Proof.
  intros (P1 & D1) (P2 & D2) [H|[H|H]]; [left; exact H|right; left; congruence|].
  right. right. rewrite (name_data h h' a D1), (name_data h h' b D2). exact H.
Qed.

Lemma apart_sym h a b : apart h a b -> apart h b a.
Proof. unfold apart. intuition congruence. Qed.

Lemma move_named st n p h' : sound st -> well_named st -> live (sheap st) n -> member_opt st p ->
  (forall q, p = Some q -> ~ above (sheap st) n q) ->
  (member st n \/ tidy (sheap st) n) ->
  (exists x, node_name (sheap st) n = Ok x /\ ~ taken st x p) ->
  set_parent (sheap st) n p = Ok h' -> well_named (Store h' (roots_after st n p)).
Proof.
  intros S (W1 & W2) L M N Td (x & Ex & U) E. pose proof (sound_heap st S) as G.
  destruct (move_ok st n p S L M N) as (h1 & E1 & S1 & Mem & P & Q & Dt & _).
  rewrite E in E1. injection E1 as <-.
  assert (Nn : forall m, node_name h' m = node_name (sheap st) m) by (intros m; apply name_data, Dt).
  assert (K : forall m, m <> n -> kept (sheap st) h' m) by (intros m Hm; split; auto).
  split; cbn [sheap].
  - intros m Hm. rewrite Nn. apply Mem in Hm as [Hm|Hm]; [auto|]. destruct Td as [Mn|(T1 & _)]; [|auto].
    apply W1. exact (member_down st n m Mn Hm).
  - (* a frame that was not below [n] *)
    assert (Bt : forall b, member st b \/ above (sheap st) n b -> b <> n -> apart h' n b).
    { intros b Hb Hbn. destruct Hb as [Hb|Hb].
      - (* [n] comes below [p], where its name was not taken *)
        right. destruct (name_live (sheap st) b (member_live _ _ Hb)) as (y & Ey).
        rewrite P, (Q b Hbn), !Nn, Ex, Ey.
        assert (Lb := member_live _ _ Hb). apply live_parent in Lb as (pb & Pb). rewrite Pb.
        destruct (str_eqb x y) eqn:Exy.
        + apply str_eqb_spec in Exy as <-. left. intros [= <-]. apply U. exists b. auto.
        + apply str_eqb_false in Exy. right. congruence.
      - right. left. rewrite P, (Q b Hbn). apply above_cases in Hb as [<-|(c & Pc & A)]; [contradiction|].
        rewrite Pc. intros [= ->]. exact (N c eq_refl A). }
    assert (Bo : forall a b, member st a -> ~ above (sheap st) n a -> above (sheap st) n b -> b <> n -> ~ member st b -> apart h' a b).
    { intros a b Ha Na Hb Hbn Nb. right. left. rewrite (Q b Hbn).
      destruct (Nat.eq_dec a n) as [->|Han]; [exfalso; apply Nb; exact (member_down st n b Ha Hb)|].
      rewrite (Q a Han). apply above_cases in Hb as [<-|(c & Pc & A)]; [contradiction|]. rewrite Pc. intros Pa.
      apply Nb. apply (member_down st c b); [|exact (above_up _ _ _ G Pc)].
      exact (member_up st c a S Ha (above_up _ _ _ G Pa)). }
    intros a b Ha Hb. apply Mem in Ha. apply Mem in Hb.
    destruct (Nat.eq_dec a n) as [->|Han].
    { destruct (Nat.eq_dec b n) as [->|Hbn]; [left; reflexivity|auto]. }
    destruct (Nat.eq_dec b n) as [->|Hbn]; [apply apart_sym; auto|].
    assert (MA : forall m, member st m \/ above (sheap st) n m -> member st m \/ (~ member st m /\ above (sheap st) n m)).
    { intros m [H|H]; [auto|]. destruct (member_dec st m S (above_live _ _ _ H)); auto. }
    assert (NA : forall m m', member st m -> ~ member st m' -> above (sheap st) n m' -> ~ above (sheap st) n m).
    { intros m m' Hm Hm' A B. apply Hm'. apply (member_down st n m'); [|exact A]. exact (member_up st n m S Hm B). }
    destruct (MA a Ha) as [Ma|(Ma & Aa)], (MA b Hb) as [Mb|(Mb & Ab)].
    + apply (apart_kept (sheap st)); auto.
    + apply Bo; auto. exact (NA a b Ma Mb Ab).
    + apply apart_sym, Bo; auto. exact (NA b a Mb Ma Aa).
    + apply (apart_kept (sheap st)); auto. destruct Td as [Mn|(_ & T2)]; [|auto].
      exfalso. apply Ma. exact (member_down st n a Mn Aa).
Qed.

(** ** set_parent *)

Lemma set_parent_store st n p : sound st -> live (sheap st) n -> live_opt (sheap st) p ->
  (fs_set_parent st (Some n) p = Throw LogicErr /\
     (~ member_opt st p \/ (parent (sheap st) n <> Ok p /\ exists x, node_name (sheap st) n = Ok x /\ taken st x p))) \/
  (member_opt st p /\ parent (sheap st) n = Ok p /\ fs_set_parent st (Some n) p = Ok st) \/
  (member_opt st p /\ parent (sheap st) n <> Ok p /\ (exists x, node_name (sheap st) n = Ok x /\ ~ taken st x p) /\
   fs_set_parent st (Some n) p = (h <- set_parent (sheap st) n p ;; Ok (Store h (roots_after st n p)))).
Proof.
  intros S L Lp. unfold fs_set_parent. cbn [not_null bind].
  destruct (check_ok st p S Lp) as [(-> & Mp)|(-> & Mp)]; cbn [bind]; [|left; auto].
  pose proof L as L'. apply live_parent in L' as (q & Eq). rewrite Eq. cbn [bind].
  assert (X : is q p = true <-> q = p).
  { destruct q, p; cbn [is]; try (split; congruence). rewrite Nat.eqb_eq. split; congruence. }
  destruct (is q p).
  { right. left. split; [exact Mp|]. split; [|reflexivity]. f_equal. apply X. reflexivity. }
  assert (Ne : q <> p) by (intros H; apply X in H; discriminate).
  destruct (name_live (sheap st) n L) as (x & Ex). rewrite Ex. cbn [bind].
  destruct (unique_ok st x p S Mp) as [(-> & U)|(-> & U)]; cbn [bind].
  - right. right. split; [exact Mp|]. split; [congruence|]. split; [exists x; auto|].
    unfold roots_after. destruct p; reflexivity.
  - left. split; [reflexivity|]. right. split; [congruence|eauto].
Qed.

(** ** del *)

Lemma del_rec_ok st n : sound st -> live (sheap st) n ->
  exists h', fs_del st (Some n) true = Ok (Store h' (erase n (sroots st))) /\
    sound (Store h' (erase n (sroots st))) /\
    (forall m, live h' m <-> live (sheap st) m /\ ~ above (sheap st) n m) /\
    (forall m, live h' m -> kept (sheap st) h' m) /\
    (forall m, member (Store h' (erase n (sroots st))) m <-> member st m /\ ~ above (sheap st) n m).
Proof.
  intros S L. pose proof (sound_heap st S) as G.
  destruct (grown_delete (sheap st) n G L) as (h' & E & G' & Lv & Kp & _).
  unfold fs_del. cbn [not_null bind]. rewrite E. cbn [bind]. exists h'. split; [reflexivity|].
  assert (Ri : forall r, In r (erase n (sroots st)) <-> In r (sroots st) /\ r <> n).
  { intros r. apply erase_in, (sound_nodup st S). }
  assert (Rl : forall r, In r (sroots st) -> r <> n -> live h' r).
  { intros r I Hr. apply Lv. split; [exact (member_live _ _ (root_member st r S I))|].
    intros A. apply Hr. symmetry. exact (above_root_eq _ _ _ A (sound_roots st S r I)). }
  assert (Same : forall m a, live h' m -> (above h' a m <-> above (sheap st) a m)).
  { intros m a Lm. pose proof (proj1 (Lv m) Lm) as (L1 & N1). apply above_same; [exact G|exact L1|].
    intros x A. apply Kp. apply Lv. split; [exact (above_live_top _ _ _ A)|].
    intros B. apply N1. exact (above_trans _ _ _ _ B A). }
  split; [|split; [exact Lv|split; [exact Kp|]]].
  - constructor; cbn [sheap sroots]; [exact G'|apply erase_nodup, (sound_nodup st S)|].
    intros r I. apply Ri in I as (I & Hr). rewrite (proj1 (Kp r (Rl r I Hr))). exact (sound_roots st S r I).
  - intros m. split.
    + intros (r & I & A). cbn [sheap sroots] in *. apply Ri in I as (I & Hr).
      pose proof (above_live _ _ _ A) as Lm. pose proof (proj1 (Lv m) Lm) as (L1 & N1).
      split; [|exact N1]. exists r. split; [exact I|]. apply Same; assumption.
    + intros ((r & I & A) & N1). assert (Lm : live h' m) by (apply Lv; split; [exact (above_live _ _ _ A)|exact N1]).
      exists r. cbn [sheap sroots]. split; [apply Ri; split; [exact I|intros ->; contradiction]|]. apply Same; assumption.
Qed.

Lemma del_one_ok st n : sound st -> live (sheap st) n ->
  exists h' cs, children (sheap st) n = Ok cs /\
    fs_del st (Some n) false = Ok (Store h' (erase n (sroots st) ++ cs)) /\
    sound (Store h' (erase n (sroots st) ++ cs)) /\
    (forall m, live h' m <-> live (sheap st) m /\ m <> n) /\
    (forall m, m <> n -> data h' m = data (sheap st) m) /\
    (forall m q, m <> n -> parent (sheap st) m = Ok q -> parent h' m = Ok (if is q (Some n) then None else q)) /\
    (forall m, member (Store h' (erase n (sroots st) ++ cs)) m <-> (member st m \/ above (sheap st) n m) /\ m <> n).
Proof.
  intros S L. pose proof (sound_heap st S) as G.
  destruct (links (sheap st) n G L) as (cs & Ec & ND & Cs).
  destruct (grown_destroy (sheap st) n G L) as (h' & E & G' & Ln & Dt & Pr & Lv & _).
  unfold fs_del. cbn [not_null bind]. rewrite Ec. cbn [bind]. rewrite E. cbn [bind].
  exists h', cs. split; [reflexivity|]. split; [reflexivity|].
  assert (Ri : forall r, In r (erase n (sroots st) ++ cs) <-> (In r (sroots st) /\ r <> n) \/ parent (sheap st) r = Ok (Some n)).
  { intros r. rewrite in_app_iff, Cs, erase_in by exact (sound_nodup st S). tauto. }
  assert (Nn : parent (sheap st) n <> Ok (Some n)).
  { intros P. destruct (above_path (sheap st) n G L) as (l & Pl & _).
    inversion Pl as [? ?|? p0 l0 P1 Pl0]; subst; [congruence|]. assert (p0 = n) by congruence. subst p0.
    pose proof (path_det (sheap st) n _ Pl _ Pl0) as Ed. apply (f_equal (@List.length nat)) in Ed. cbn [List.length] in Ed. lia. }
  split; [|split; [exact Lv|split; [exact Dt|split; [exact Pr|]]]].
  - constructor; cbn [sheap sroots]; [exact G'| |].
    + apply NoDup_app_intro; [apply erase_nodup, (sound_nodup st S)|exact ND|].
      intros r I1 I2. apply Cs in I2. apply erase_in in I1; [|exact (sound_nodup st S)]. destruct I1 as (I1 & _).
      rewrite (sound_roots st S r I1) in I2. discriminate.
    + intros r I. apply Ri in I as [(I & Hr)|P].
      * rewrite (Pr r None Hr (sound_roots st S r I)). reflexivity.
      * assert (r <> n) by (intros ->; contradiction). rewrite (Pr r (Some n)) by assumption. cbn [is]. rewrite Nat.eqb_refl. reflexivity.
  - (* what is above a frame now was above it before *)
    assert (Fw : forall a m, above h' a m -> above (sheap st) a m).
    { induction 1 as [m Lm|a p m P A IH].
      - constructor. apply Lv in Lm. tauto.
      - econstructor; [|exact IH]. pose proof (parent_live _ _ _ P) as Lm. apply Lv in Lm as (Lm & Hm).
        pose proof Lm as Lq. apply live_parent in Lq as (q & Eq). rewrite (Pr m q Hm Eq) in P.
        destruct q as [q|]; cbn [is] in P; [|discriminate]. destruct (Nat.eqb q n); [discriminate|]. congruence. }
    (* a way up that avoids [n] is still there *)
    assert (Bw : forall a m, above (sheap st) a m -> ~ above (sheap st) a n \/ ~ above (sheap st) n m -> m <> n -> a <> n -> above h' a m).
    { induction 1 as [m Lm|a p m P A IH]; intros H Hm Ha.
      - constructor. apply Lv. auto.
      - assert (Hp : p <> n).
        { intros ->. destruct H as [H|H]; [exact (H A)|]. apply H. exact (above_up _ _ _ G P). }
        econstructor.
        + rewrite (Pr m (Some p) Hm P). cbn [is]. apply Nat.eqb_neq in Hp. rewrite Hp. reflexivity.
        + apply IH; auto. destruct H as [H|H]; [auto|right]. intros B. apply H. econstructor; eassumption. }
    intros m. split.
    + intros (r & I & A). cbn [sheap sroots] in *. split.
      * apply Fw in A. apply Ri in I as [(I & Hr)|P]; [left; exists r; auto|].
        right. exact (above_trans _ _ _ _ (above_up _ _ _ G P) A).
      * intros ->. apply Ln. exact (above_live _ _ _ A).
    + intros (H & Hm).
      assert (Lm : live (sheap st) m) by (destruct H as [H|H]; [exact (member_live _ _ H)|exact (above_live _ _ _ H)]).
      destruct (above_dec (sheap st) n m G Lm) as [B|B].
      * (* below [n]: through one of its children *)
        assert (C : exists c, parent (sheap st) c = Ok (Some n) /\ above (sheap st) c m).
        { clear - B Hm G. induction B as [m Lm|n p m P A IH]; [contradiction|].
          destruct (Nat.eq_dec p n) as [->|Hp].
          - exists m. split; [exact P|]. constructor. exact (parent_live _ _ _ P).
          - destruct (IH Hp) as (c & Pc & A'). exists c. split; [exact Pc|]. econstructor; eassumption. }
        destruct C as (c & Pc & A). exists c. cbn [sheap sroots]. split; [apply Ri; auto|].
        assert (Hc : c <> n) by (intros ->; contradiction).
        apply Bw; auto. left. intros A'. apply Hc. apply above_anti with (sheap st); auto. exact (above_up _ _ _ G Pc).
      * destruct H as [(r & I & A)|H]; [|contradiction].
        assert (Hr : r <> n) by (intros ->; contradiction).
        exists r. cbn [sheap sroots]. split; [apply Ri; auto|]. apply Bw; auto.
Qed.
End Store.
