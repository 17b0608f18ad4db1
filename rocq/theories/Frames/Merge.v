(** Merging one tree of frames into another. *)
From Coq Require Import List Arith Bool ZArith Lia Ascii String Permutation Sorted.
From Verif Require Import Lib.Base Lib.Lists Lib.Str Tree.Model Tree.Spec Tree.Proofs Tree.Trees Tree.Copy Tree.Props
  Frames.Model Frames.Spec Frames.Above Frames.Store.
Import ListNotations.
Open Scope nat_scope.

(** ** The order of names *)

Lemma str_ltb_irrefl a : str_ltb a a = false.
Proof. induction a as [|x a IH]; cbn [str_ltb]; [reflexivity|]. rewrite Ascii.eqb_refl. exact IH. Qed.

Lemma str_ltb_trans a b c : str_ltb a b = true -> str_ltb b c = true -> str_ltb a c = true.
Proof.
  revert b c. induction a as [|x a IH]; intros [|y b] [|z c]; cbn [str_ltb]; try discriminate; auto.
  destruct (Ascii.eqb_spec x y) as [->|H1].
  - destruct (Ascii.eqb_spec y z) as [->|H2]; [apply IH|auto].
  - destruct (Ascii.eqb_spec y z) as [<-|H2].
    + intros H _. destruct (Ascii.eqb_spec x y); [contradiction|exact H].
    + rewrite !Nat.ltb_lt. intros A B. destruct (Ascii.eqb_spec x z) as [->|H3]; [lia|apply Nat.ltb_lt; lia].
Qed.

Lemma str_ltb_total a b : str_ltb a b = false -> str_ltb b a = false -> a = b.
Proof.
  revert b. induction a as [|x a IH]; intros [|y b]; cbn [str_ltb]; try discriminate; auto.
  destruct (Ascii.eqb_spec x y) as [->|H].
  - rewrite Ascii.eqb_refl. intros A B. f_equal. auto.
  - destruct (Ascii.eqb_spec y x) as [->|_]; [contradiction|]. rewrite !Nat.ltb_ge. intros A B.
    exfalso. apply H. rewrite <- (ascii_nat_embedding x), <- (ascii_nat_embedding y). f_equal. lia.
Qed.

Definition less (a b : nat * str) : Prop := str_ltb (snd a) (snd b) = true.
Definition names (l : list (nat * str)) : list str := map snd l.

Lemma insert_perm x l : Permutation (x :: l) (insert_by_name x l).
Proof.
  induction l as [|y l IH]; cbn [insert_by_name]; [reflexivity|]. destruct (str_ltb (snd y) (snd x)); [|reflexivity].
  rewrite perm_swap. apply perm_skip, IH.
Qed.
Lemma sort_perm l : Permutation l (sort_by_name l).
Proof.
  induction l as [|x l IH]; cbn [sort_by_name fold_right]; [constructor|].
  rewrite <- insert_perm. apply perm_skip. exact IH.
Qed.

Lemma insert_sorted x l : ~ In (snd x) (names l) -> StronglySorted less l -> StronglySorted less (insert_by_name x l).
Proof.
  induction l as [|y l IH]; intros N SS; cbn [insert_by_name]; [repeat constructor|].
  inversion SS as [|? ? SS' F]; subst. cbn [names map In] in N.
  destruct (str_ltb (snd y) (snd x)) eqn:E.
  - constructor; [apply IH; auto|]. apply (Permutation_Forall (insert_perm x l)). constructor; [exact E|exact F].
  - constructor; [exact SS|].
    assert (L : less x y).
    { unfold less. destruct (str_ltb (snd x) (snd y)) eqn:E'; [reflexivity|]. exfalso. apply N. left. exact (str_ltb_total _ _ E E'). }
    constructor; [exact L|]. apply Forall_forall. intros z I. rewrite Forall_forall in F.
    exact (str_ltb_trans _ _ _ L (F z I)).
Qed.

Lemma sort_sorted l : NoDup (names l) -> StronglySorted less (sort_by_name l).
Proof.
  induction l as [|x l IH]; intros ND; cbn [sort_by_name fold_right]; [constructor|].
  cbn [names map] in ND. inversion ND as [|? ? N ND']; subst. apply insert_sorted; [|apply IH; exact ND'].
  intros I. apply N. apply (Permutation_in (l := names (sort_by_name l))); [|exact I].
  apply Permutation_sym, Permutation_map, sort_perm.
Qed.

Section Merge.
Context {T : Type}.
Implicit Types (h : heap (frame T)).

(** ** The loop is a search by name *)

Fixpoint called (x : str) (l : list (nat * str)) : option nat :=
  match l with
  | [] => None
  | (d, y) :: l => if str_eqb y x then Some d else called x l
  end.

Fixpoint each (rec : heap (frame T) -> nat -> nat -> res (heap (frame T))) h (target : nat)
    (src tgt : list (nat * str)) : res (heap (frame T)) :=
  match src with
  | [] => Ok h
  | (c, x) :: src =>
      h <- match called x tgt with None => set_parent h c (Some target) | Some d => rec h d c end ;;
      each rec h target src tgt
  end.

Lemma called_none x l : ~ In x (names l) -> called x l = None.
Proof.
  induction l as [|(d, y) l IH]; cbn [called names map In snd]; intros N; [reflexivity|].
  destruct (str_eqb y x) eqn:E; [apply str_eqb_spec in E as ->; tauto|]. apply IH. tauto.
Qed.

Lemma called_skip x a l : ~ In x (names a) -> called x (a ++ l) = called x l.
Proof.
  induction a as [|(d, y) a IH]; cbn [called app names map In snd]; intros N; [reflexivity|].
  destruct (str_eqb y x) eqn:E; [apply str_eqb_spec in E as ->; tauto|]. apply IH. tauto.
Qed.

Lemma called_spec l : NoDup (names l) -> forall x d, called x l = Some d <-> In (d, x) l.
Proof.
  induction l as [|(e, y) l IH]; cbn [called names map snd]; intros ND x d; [cbn [In]; split; [discriminate|tauto]|].
  inversion ND as [|? ? N ND']; subst. destruct (str_eqb y x) eqn:E.
  - apply str_eqb_spec in E as ->. split; [intros [= ->]; left; reflexivity|].
    intros [E|I]; [congruence|]. exfalso. apply N. apply (in_map snd) in I. exact I.
  - apply str_eqb_false in E. rewrite IH by exact ND'. cbn [In]. split; [auto|]. intros [E'|I]; [congruence|exact I].
Qed.

Lemma called_in x l : called x l = None <-> ~ In x (names l).
Proof.
  split; [|apply called_none]. induction l as [|(d, y) l IH]; cbn [called names map In snd]; [tauto|].
  destruct (str_eqb y x) eqn:E; [discriminate|]. apply str_eqb_false in E. intros H [->|I]; [contradiction|]. exact (IH H I).
Qed.

Lemma skip_less_split x l : StronglySorted less l ->
  exists a, l = a ++ skip_less x l /\ (forall y, In y (names a) -> str_ltb y x = true) /\
    (forall y, In y (names (skip_less x l)) -> str_ltb y x = false).
Proof.
  induction l as [|y l IH]; intros SS; cbn [skip_less].
  - exists []. split; [reflexivity|]. split; intros z [].
  - inversion SS as [|? ? SS' F]; subst. destruct (str_ltb (snd y) x) eqn:E.
    + destruct (IH SS') as (a & El & A & B). exists (y :: a). split; [cbn [app]; rewrite <- El; reflexivity|]. split; [|exact B].
      intros z [<-|I]; auto.
    + exists []. split; [reflexivity|]. split; [intros z []|].
      intros z [<-|I]; [exact E|]. apply in_map_iff in I as (w & <- & I). rewrite Forall_forall in F. specialize (F w I).
      destruct (str_ltb (snd w) x) eqn:E'; [|reflexivity]. unfold less in F. rewrite (str_ltb_trans _ _ _ F E') in E. discriminate.
Qed.

Lemma sorted_app (a b : list (nat * str)) : StronglySorted less (a ++ b) -> StronglySorted less b.
Proof. induction a as [|x a IH]; cbn [app]; [auto|]. intros H. apply IH. inversion H; assumption. Qed.

Lemma merge_loop_each rec target src : StronglySorted less src -> forall h done tgt, StronglySorted less (done ++ tgt) ->
  (forall x y, In x (names src) -> In y (names done) -> str_ltb y x = true) ->
  merge_loop rec h target src tgt = each rec h target src (done ++ tgt).
Proof.
  induction src as [|(c, x) src IH]; intros SS h done tgt ST Less; cbn [merge_loop each]; [reflexivity|].
  inversion SS as [|? ? SS' F]; subst. rewrite Forall_forall in F.
  destruct (skip_less_split x tgt (sorted_app _ _ ST)) as (a & Et & A & B).
  assert (Nd : ~ In x (names (done ++ a))).
  { unfold names. rewrite map_app, in_app_iff. intros [I|I].
    - pose proof (Less x x (or_introl eq_refl) I) as H. rewrite str_ltb_irrefl in H. discriminate.
    - pose proof (A x I) as H. rewrite str_ltb_irrefl in H. discriminate. }
  assert (Ec : called x (done ++ tgt) = called x (skip_less x tgt)).
  { rewrite Et at 1. rewrite app_assoc. apply called_skip. exact Nd. }
  assert (Next : forall h1, merge_loop rec h1 target src (skip_less x tgt) = each rec h1 target src (done ++ tgt)).
  { intros h1. rewrite (IH SS' h1 (done ++ a)).
    - rewrite <- app_assoc, <- Et. reflexivity.
    - rewrite <- app_assoc, <- Et. exact ST.
    - intros z y Iz Iy. unfold names in Iy. rewrite map_app, in_app_iff in Iy.
      assert (Xz : str_ltb x z = true) by (apply in_map_iff in Iz as (w & <- & Iw); exact (F w Iw)).
      destruct Iy as [Iy|Iy]; [apply Less; [right; exact Iz|exact Iy]|]. exact (str_ltb_trans _ _ _ (A y Iy) Xz). }
  rewrite Ec.
  assert (SK : StronglySorted less (skip_less x tgt)) by (apply (sorted_app (done ++ a)); rewrite <- app_assoc, <- Et; exact ST).
  assert (X : match skip_less x tgt with
              | [] => set_parent h c (Some target)
              | (d, y) :: _ => if str_ltb x y then set_parent h c (Some target) else if str_eqb x y then rec h d c else Ok h
              end = match called x (skip_less x tgt) with None => set_parent h c (Some target) | Some d => rec h d c end).
  { destruct (skip_less x tgt) as [|(d, y) l]; [reflexivity|].
    cbn [called]. specialize (B y (or_introl eq_refl)).
    destruct (str_ltb x y) eqn:Exy.
    - destruct (str_eqb y x) eqn:E; [apply str_eqb_spec in E as ->; rewrite str_ltb_irrefl in Exy; discriminate|].
      rewrite called_none; [reflexivity|]. intros I. inversion SK as [|? ? _ F']; subst. rewrite Forall_forall in F'.
      apply in_map_iff in I as (w & Ew & Iw). specialize (F' w Iw). unfold less in F'. cbn [snd] in F'. rewrite Ew in F'.
      rewrite F' in B. discriminate.
    - assert (x = y) by (apply str_ltb_total; assumption). subst y. rewrite str_eqb_refl. reflexivity. }
  change (nat * list ascii)%type with (nat * str)%type in *.
  rewrite X. destruct (match called x (skip_less x tgt) with None => _ | Some d => _ end); [|reflexivity|reflexivity].
  cbn [bind]. apply Next.
Qed.

(** ** Paths of names *)

Lemma at_path_end h n xs m : at_path h n xs m -> live h m.
Proof. induction 1; auto. Qed.

Lemma at_path_above h n xs m : grown h -> at_path h n xs m -> above h n m.
Proof.
  intros G. induction 1 as [n L|n c x xs m P E H IH]; [constructor; exact L|].
  exact (above_trans _ _ _ _ (above_up _ _ _ G P) IH).
Qed.

Lemma at_path_app h n xs m : at_path h n xs m -> forall ys k, at_path h m ys k -> at_path h n (xs ++ ys) k.
Proof. induction 1; intros ys k H'; cbn [app]; [exact H'|]. econstructor; eauto. Qed.

Lemma above_at_path h n m : grown h -> above h n m -> exists xs, at_path h n xs m.
Proof.
  intros G. induction 1 as [n L|n p m P A (xs & IH)]; [exists []; constructor; exact L|].
  destruct (name_live h m (parent_live _ _ _ P)) as (x & Ex). exists (xs ++ [x]).
  apply (at_path_app h n xs p IH). econstructor; [exact P|exact Ex|]. constructor. exact (parent_live _ _ _ P).
Qed.

(** One node at most for every path. *)
Definition det h n : Prop := forall xs a b, at_path h n xs a -> at_path h n xs b -> a = b.

Lemma no_self h n : grown h -> parent h n <> Ok (Some n).
Proof.
  intros G P. destruct (above_path h n G (parent_live _ _ _ P)) as (l & Pl & _).
  inversion Pl as [? ?|? p0 l0 P1 Pl0]; subst; [congruence|]. assert (p0 = n) by congruence. subst p0.
  pose proof (path_det h n _ Pl _ Pl0) as Ed. apply (f_equal (@List.length nat)) in Ed. cbn [List.length] in Ed. lia.
Qed.

Lemma not_below_parent h n p : grown h -> parent h n = Ok (Some p) -> ~ above h n p.
Proof.
  intros G P A. assert (n = p) by exact (above_anti h n p G A (above_up h n p G P)). subst p. exact (no_self h n G P).
Qed.

Lemma tidy_det h n : grown h -> tidy h n -> det h n.
Proof.
  intros G (_ & W) xs. revert n W. induction xs as [|x xs IH]; intros n W a b A B.
  - inversion A; inversion B; subst; reflexivity.
  - inversion A as [|? c ? ? ? P E A']; subst. inversion B as [|? c' ? ? ? P' E' B']; subst.
    assert (An := above_up h c n G P). assert (An' := above_up h c' n G P').
    assert (c = c') by (destruct (W c c' An An') as [H|[H|H]]; congruence). subst c'.
    apply (IH c); [|exact A'|exact B']. intros u v U V. apply W; eapply above_trans; eassumption.
Qed.

Lemma det_tidy h n : grown h -> det h n -> (forall m, above h n m -> node_name h m <> Ok []) -> tidy h n.
Proof.
  intros G Dn Ne. split; [exact Ne|]. intros a b A B.
  destruct (Nat.eq_dec a b) as [->|Hab]; [left; reflexivity|right].
  assert (La := above_live _ _ _ A). assert (Lb := above_live _ _ _ B).
  apply live_parent in La as (pa & Pa). apply live_parent in Lb as (pb & Pb).
  destruct (name_live h a (above_live _ _ _ A)) as (x & Ex). destruct (name_live h b (above_live _ _ _ B)) as (y & Ey).
  rewrite Pa, Pb, Ex, Ey.
  destruct (str_eqb x y) eqn:Q; [apply str_eqb_spec in Q as <-|apply str_eqb_false in Q; right; congruence].
  left. intros [= <-]. apply Hab.
  destruct (above_cases _ _ _ A) as [->|(q & Pq & Aq)], (above_cases _ _ _ B) as [<-|(q' & Pq' & Bq)].
  - reflexivity.
  - exfalso. apply (not_below_parent h a q' G); [congruence|exact Bq].
  - exfalso. apply (not_below_parent h n q G); [congruence|exact Aq].
  - assert (pa = Some q) by congruence. subst pa. destruct (above_at_path h n q G Aq) as (xs & H).
    apply (Dn (xs ++ [x])); apply (at_path_app h n xs q H).
    + apply (at_cons h q a); [exact Pa|exact Ex|constructor; exact (parent_live _ _ _ Pa)].
    + apply (at_cons h q b); [exact Pb|exact Ey|constructor; exact (parent_live _ _ _ Pb)].
Qed.

Lemma det_child h n c : det h n -> parent h c = Ok (Some n) -> det h c.
Proof.
  intros Dn P xs a b A B. destruct (name_live h c (parent_live _ _ _ P)) as (x & Ex).
  apply (Dn (x :: xs)); econstructor; eassumption.
Qed.

Lemma det_one h n c c' x : det h n -> parent h c = Ok (Some n) -> parent h c' = Ok (Some n) ->
  node_name h c = Ok x -> node_name h c' = Ok x -> c = c'.
Proof.
  intros Dn P P' E E'. apply (Dn [x]).
  - apply (at_cons h n c); [exact P|exact E|constructor; exact (parent_live _ _ _ P)].
  - apply (at_cons h n c'); [exact P'|exact E'|constructor; exact (parent_live _ _ _ P')].
Qed.

(** ** What merging does *)

Definition strictly h c m : Prop := above h c m /\ m <> c.

(** From [h] to [h'] the nodes below [c], and listed, go below [d] when their
    paths lead nowhere from there. *)
Record united (listed : list str -> Prop) h h' (d c : nat) : Prop := United {
  un_grown : grown h';
  un_data : forall m, data h' m = data h m;
  un_rest : forall m, ~ strictly h c m -> parent h' m = parent h m;
  un_move : forall m, strictly h c m -> parent h' m = parent h m \/ exists q, parent h' m = Ok (Some q) /\ above h' d q;
  un_to : forall xs m, at_path h' d xs m <->
    at_path h d xs m \/ (listed xs /\ at_path h c xs m /\ forall k, ~ at_path h d xs k);
  un_from : forall xs m, at_path h' c xs m <->
    at_path h c xs m /\ (listed xs -> exists k, at_path h d xs k)
}.

Definition incomparable h a b : Prop := ~ above h a b /\ ~ above h b a.

Lemma united_name L h h' d c m : united L h h' d c -> node_name h' m = node_name h m.
Proof. intros U. apply name_data, (un_data _ _ _ _ _ U). Qed.

Lemma united_live L h h' d c m : united L h h' d c -> (live h' m <-> live h m).
Proof. intros U. rewrite !live_data. setoid_rewrite (un_data _ _ _ _ _ U). tauto. Qed.

(** Ways up that do not pass below [c]. *)
Lemma united_up L h h' d c n : united L h h' d c -> grown h -> live h n -> ~ strictly h c n ->
  forall a, above h' a n <-> above h a n.
Proof.
  intros U G Ln N a. apply above_same; [exact G|exact Ln|].
  intros x A. apply (un_rest _ _ _ _ _ U). intros (B & Hx). apply N. split; [exact (above_trans _ _ _ _ B A)|].
  intros ->. apply Hx. exact (above_anti h x c G A B).
Qed.

(** Trees apart from both are as they were. *)
Lemma united_apart L h h' d c : united L h h' d c -> grown h ->
  forall xs z m, live h z -> incomparable h z d -> incomparable h z c -> (at_path h' z xs m <-> at_path h z xs m).
Proof.
  intros U G. induction xs as [|x xs IH]; intros z m Lz Zd Zc.
  - split; intros H; inversion H; subst; constructor; [exact Lz|]. apply (united_live _ _ _ _ _ _ U). exact Lz.
  - assert (Nz : forall n, above h z n -> ~ above h c n).
    { intros n A B. destruct (above_chain _ _ _ _ A B); [apply (proj1 Zc)|apply (proj2 Zc)]; assumption. }
    assert (Ch : forall y, parent h' y = Ok (Some z) <-> parent h y = Ok (Some z)).
    { intros y. split; intros P.
      - assert (Ly : live h y) by (apply (united_live _ _ _ _ _ _ U); exact (parent_live _ _ _ P)).
        destruct (above_dec h c y G Ly) as [A|A].
        + destruct (Nat.eq_dec y c) as [->|Hy].
          { rewrite <- (un_rest _ _ _ _ _ U c); [exact P|]. intros (_ & H). apply H. reflexivity. }
          destruct (un_move _ _ _ _ _ U y (conj A Hy)) as [E|(q & E & B)]; [congruence|].
          assert (q = z) by congruence. subst q. exfalso. apply (proj2 Zd).
          apply (united_up _ _ _ _ _ z U G Lz); [|exact B]. intros (B' & _). exact (proj2 Zc B').
        + rewrite <- (un_rest _ _ _ _ _ U y); [exact P|]. intros (B & _). exact (A B).
      - rewrite (un_rest _ _ _ _ _ U y); [exact P|]. intros (B & _). exact (Nz y (above_up h y z G P) B). }
    assert (Sub : forall y, parent h y = Ok (Some z) -> incomparable h y d /\ incomparable h y c).
    { intros y P. assert (A := above_up h y z G P).
      assert (Y : forall k, incomparable h z k -> incomparable h y k).
      { intros k (K1 & K2). split; intros B.
        - apply K1. exact (above_trans _ _ _ _ A B).
        - apply above_cases in B as [->|(p & P' & B)]; [exact (K1 A)|]. apply K2. congruence. }
      split; apply Y; assumption. }
    split; intros H; inversion H as [|? y ? ? ? P E H']; subst.
    + apply Ch in P. rewrite (united_name _ _ _ _ _ _ U) in E. destruct (Sub y P) as (S1 & S2).
      econstructor; [exact P|exact E|]. apply IH; auto. exact (parent_live _ _ _ P).
    + destruct (Sub y P) as (S1 & S2). econstructor; [apply Ch; exact P|rewrite (united_name _ _ _ _ _ _ U); exact E|].
      apply IH; auto. exact (parent_live _ _ _ P).
Qed.

(** ** One child *)

Definition first_is (x : str) (xs : list str) : Prop := exists ys, xs = x :: ys.

Lemma incomparable_sym h a b : incomparable h a b -> incomparable h b a.
Proof. unfold incomparable. tauto. Qed.

Lemma incomparable_child h a b y : grown h -> incomparable h a b -> parent h y = Ok (Some a) -> incomparable h y b.
Proof.
  intros G (K1 & K2) P. assert (A := above_up h y a G P). split; intros B.
  - apply K1. exact (above_trans _ _ _ _ A B).
  - apply above_cases in B as [->|(p & P' & B)]; [exact (K1 A)|]. apply K2. congruence.
Qed.

Lemma siblings_incomparable h n a b : grown h -> parent h a = Ok (Some n) -> parent h b = Ok (Some n) -> a <> b -> incomparable h a b.
Proof.
  intros G P Q H. assert (X : forall u v, parent h u = Ok (Some n) -> parent h v = Ok (Some n) -> u <> v -> ~ above h u v).
  { intros u v Pu Pv Huv A. apply above_cases in A as [->|(p & P' & A)]; [contradiction|].
    assert (p = n) by congruence. subst p. exact (not_below_parent h u n G Pu A). }
  split; apply X; auto.
Qed.

Lemma child_incomparable h n c y : grown h -> incomparable h n y -> parent h c = Ok (Some n) -> incomparable h c y.
Proof. intros G I P. exact (incomparable_child h n y c G I P). Qed.

(** A child without a match is moved. *)
Lemma moved_united h d c c1 x : grown h -> live h d -> live h c -> incomparable h d c -> det h d -> det h c ->
  parent h c1 = Ok (Some c) -> node_name h c1 = Ok x ->
  (forall e, parent h e = Ok (Some d) -> node_name h e <> Ok x) ->
  exists h', set_parent h c1 (Some d) = Ok h' /\ united (first_is x) h h' d c.
Proof.
  intros G Ld Lc Inc Dd Dc P1 E1 Un.
  assert (N1 : ~ above h c1 d) by (intros A; apply (proj2 Inc); exact (above_trans _ _ _ _ (above_up h c1 c G P1) A)).
  assert (L1 := parent_live _ _ _ P1).
  destruct (grown_set_parent h c1 (Some d) G L1 Ld) as (h' & E & G' & P' & Q & Dt & _); [congruence|].
  exists h'. split; [exact E|].
  assert (Nn : forall m, node_name h' m = node_name h m) by (intros m; apply name_data, Dt).
  assert (Lv : forall m, live h' m <-> live h m) by (intros m; rewrite !live_data; setoid_rewrite Dt; tauto).
  assert (Hcd : c <> d) by (intros ->; apply (proj1 Inc); constructor; exact Ld).
  (* paths from nodes that are not above [c1], or [d] *)
  assert (Low : forall xs z m, live h z -> ~ above h z c -> ~ above h z d -> (at_path h' z xs m <-> at_path h z xs m)).
  { induction xs as [|y xs IH]; intros z m Lz Zc Zd.
    - split; intros H; inversion H; subst; constructor; [exact Lz|apply Lv; exact Lz].
    - assert (Ch : forall w, parent h' w = Ok (Some z) <-> parent h w = Ok (Some z)).
      { intros w. destruct (Nat.eq_dec w c1) as [->|Hw]; [|rewrite Q by exact Hw; tauto].
        rewrite P', P1. split; intros [= <-]; exfalso; [apply Zd|apply Zc]; constructor; assumption. }
      assert (Sub : forall w, parent h w = Ok (Some z) -> ~ above h w c /\ ~ above h w d).
      { intros w P. assert (A := above_up h w z G P). split; intros B; [apply Zc|apply Zd]; exact (above_trans _ _ _ _ A B). }
      split; intros H; inversion H as [|? w ? ? ? P Ex H']; subst.
      + apply Ch in P. rewrite Nn in Ex. destruct (Sub w P). econstructor; [exact P|exact Ex|]. apply IH; auto. exact (parent_live _ _ _ P).
      + destruct (Sub w P). econstructor; [apply Ch; exact P|rewrite Nn; exact Ex|]. apply IH; auto. exact (parent_live _ _ _ P). }
  assert (Kid : forall n w, (n = c \/ n = d) -> parent h w = Ok (Some n) -> ~ above h w c /\ ~ above h w d).
  { intros n w Hn P. destruct Hn as [-> | ->].
    - split; [exact (not_below_parent h w c G P)|]. exact (proj1 (incomparable_child h c d w G (incomparable_sym _ _ _ Inc) P)).
    - split; [exact (proj1 (incomparable_child h d c w G Inc P))|exact (not_below_parent h w d G P)]. }
  assert (At1 : forall ys m, at_path h c (x :: ys) m <-> at_path h c1 ys m).
  { intros ys m. split; intros H.
    - inversion H as [|? w ? ? ? P Ex H']; subst. rewrite (det_one h c c1 w x Dc); assumption.
    - econstructor; eassumption. }
  constructor; auto.
  - intros m Hm. apply Q. intros ->. apply Hm. split; [exact (above_up h c1 c G P1)|]. intros ->. exact (no_self h c G P1).
  - intros m _. destruct (Nat.eq_dec m c1) as [->|Hm]; [right; exists d; split; [exact P'|constructor; apply Lv; exact Ld]|left; auto].
  - intros [|y ys] m.
    + split; [intros H; inversion H; subst; left; constructor; exact Ld|].
      intros [H|((? & [=]) & _)]. inversion H; subst. constructor. apply Lv. exact Ld.
    + split.
      * intros H. inversion H as [|? w ? ? ? P Ex H']; subst. rewrite Nn in Ex.
        destruct (Nat.eq_dec w c1) as [->|Hw].
        -- right. assert (y = x) by congruence. subst y. split; [exists ys; reflexivity|]. split.
           ++ apply At1. apply Low; auto; apply (Kid c c1); auto.
           ++ intros k H2. inversion H2 as [|? v ? ? ? Pv Ev _]; subst. exact (Un v Pv Ev).
        -- left. rewrite Q in P by exact Hw. econstructor; [exact P|exact Ex|]. destruct (Kid d w (or_intror eq_refl) P).
           apply Low; auto. exact (parent_live _ _ _ P).
      * intros [H|((zs & Ez) & H & _)].
        -- inversion H as [|? w ? ? ? P Ex H']; subst.
           assert (Hw : w <> c1) by congruence. econstructor; [rewrite Q by exact Hw; exact P|rewrite Nn; exact Ex|].
           destruct (Kid d w (or_intror eq_refl) P). apply Low; auto. exact (parent_live _ _ _ P).
        -- injection Ez as -> ->. apply At1 in H. econstructor; [exact P'|rewrite Nn; exact E1|]. apply Low; auto; apply (Kid c c1); auto.
  - intros [|y ys] m.
    + split; [intros H; inversion H; subst; split; [constructor; exact Lc|intros (? & [=])]|].
      intros (H & _). inversion H; subst. constructor. apply Lv. exact Lc.
    + split.
      * intros H. inversion H as [|? w ? ? ? P Ex H']; subst. rewrite Nn in Ex.
        assert (Hw : w <> c1) by congruence. rewrite Q in P by exact Hw. split.
        -- econstructor; [exact P|exact Ex|]. destruct (Kid c w (or_introl eq_refl) P). apply Low; auto. exact (parent_live _ _ _ P).
        -- intros (zs & [= -> ->]). exfalso. apply Hw. exact (det_one h c w c1 x Dc P P1 Ex E1).
      * intros (H & K). inversion H as [|? w ? ? ? P Ex H']; subst.
        assert (Hw : w <> c1).
        { intros ->. assert (y = x) by congruence. subst y. destruct K as (k & K); [exists ys; reflexivity|].
          inversion K as [|? v ? ? ? Pv Ev _]; subst. exact (Un v Pv Ev). }
        econstructor; [rewrite Q by exact Hw; exact P|rewrite Nn; exact Ex|].
        destruct (Kid c w (or_introl eq_refl) P). apply Low; auto. exact (parent_live _ _ _ P).
Qed.

(** A child with a match is merged with it. *)
Lemma matched_united h h' d c e c1 x : grown h -> live h d -> live h c -> incomparable h d c -> det h d -> det h c ->
  parent h c1 = Ok (Some c) -> node_name h c1 = Ok x -> parent h e = Ok (Some d) -> node_name h e = Ok x ->
  united (fun _ => True) h h' e c1 -> united (first_is x) h h' d c.
Proof.
  intros G Ld Lc Inc Dd Dc P1 E1 Pe Ee U.
  assert (L1 := parent_live _ _ _ P1). assert (Le := parent_live _ _ _ Pe).
  assert (Nn : forall m, node_name h' m = node_name h m) by (intros m; exact (united_name _ _ _ _ _ m U)).
  assert (Lv : forall m, live h' m <-> live h m) by (intros m; exact (united_live _ _ _ _ _ m U)).
  assert (I1d : incomparable h c1 d) by (apply (incomparable_child h c d); auto; apply incomparable_sym, Inc).
  assert (Iec : incomparable h e c) by (apply (incomparable_child h d c); auto).
  assert (Ie1 : incomparable h e c1) by (apply incomparable_sym, (incomparable_child h c e c1 G); [apply incomparable_sym, Iec|exact P1]).
  assert (G' := un_grown _ _ _ _ _ U).
  (* the ways up from [d], [c], [e], [c1] *)
  assert (Up : forall n, live h n -> ~ above h c1 n \/ n = c1 -> forall a, above h' a n <-> above h a n).
  { intros n Ln Hn. apply (united_up _ _ _ _ _ n U G Ln). intros (A & H). destruct Hn; contradiction. }
  assert (N1c : ~ above h c1 c) by exact (not_below_parent h c1 c G P1).
  assert (Dch : forall n y, n = c \/ n = d -> (parent h' y = Ok (Some n) <-> parent h y = Ok (Some n))).
  { intros n y Hn.
    assert (Nn1 : ~ above h c1 n) by (destruct Hn as [-> | ->]; [exact N1c|exact (proj1 I1d)]).
    assert (Nne : ~ above h e n) by (destruct Hn as [-> | ->]; [exact (proj1 Iec)|exact (not_below_parent h e d G Pe)]).
    assert (Ln : live h n) by (destruct Hn as [-> | ->]; assumption).
    split; intros P.
    - assert (Ly : live h y) by (apply Lv; exact (parent_live _ _ _ P)).
      destruct (above_dec h c1 y G Ly) as [A|A].
      + destruct (Nat.eq_dec y c1) as [->|Hy].
        { rewrite <- (un_rest _ _ _ _ _ U c1); [exact P|]. intros (_ & H). apply H. reflexivity. }
        destruct (un_move _ _ _ _ _ U y (conj A Hy)) as [E|(q & E & B)]; [congruence|].
        assert (q = n) by congruence. subst q. exfalso. apply Nne. apply (Up n); auto.
      + rewrite <- (un_rest _ _ _ _ _ U y); [exact P|]. intros (B & _). exact (A B).
    - rewrite (un_rest _ _ _ _ _ U y); [exact P|]. intros (A & Hy).
      apply above_cases in A as [->|(p & P' & A)]; [contradiction|]. apply Nn1. congruence. }
  assert (Other : forall n y xs m, n = c \/ n = d -> parent h y = Ok (Some n) -> y <> c1 -> y <> e ->
            (at_path h' y xs m <-> at_path h y xs m)).
  { intros n y xs m Hn P Hy1 Hye. apply (united_apart _ _ _ _ _ U G); [exact (parent_live _ _ _ P)| |].
    - destruct Hn as [-> | ->]; [|exact (siblings_incomparable h d y e G P Pe Hye)].
      apply (incomparable_child h c e); auto. apply incomparable_sym, Iec.
    - destruct Hn as [-> | ->]; [exact (siblings_incomparable h c y c1 G P P1 Hy1)|].
      apply (incomparable_child h d c1); auto. apply incomparable_sym, I1d. }
  assert (At1 : forall ys m, at_path h c (x :: ys) m <-> at_path h c1 ys m).
  { intros ys m. split; intros H; [|econstructor; eassumption].
    inversion H as [|? w ? ? ? P Ex H']; subst. rewrite (det_one h c c1 w x Dc); assumption. }
  assert (Ate : forall ys m, at_path h d (x :: ys) m <-> at_path h e ys m).
  { intros ys m. split; intros H; [|econstructor; eassumption].
    inversion H as [|? w ? ? ? P Ex H']; subst. rewrite (det_one h d e w x Dd); assumption. }
  assert (Hnc : forall w, parent h w = Ok (Some d) -> w <> c1).
  { intros w P ->. assert (c = d) by congruence. subst d. apply (proj1 Inc). constructor. exact Lc. }
  assert (Hne : forall w, parent h w = Ok (Some c) -> w <> e).
  { intros w P ->. assert (c = d) by congruence. subst d. apply (proj1 Inc). constructor. exact Lc. }
  constructor; auto.
  - exact (un_data _ _ _ _ _ U).
  - intros m Hm. apply (un_rest _ _ _ _ _ U). intros (A & H1). apply Hm. split.
    + exact (above_trans _ _ _ _ (above_up h c1 c G P1) A).
    + intros ->. exact (N1c A).
  - intros m (A & Hm). assert (Lm := above_live _ _ _ A).
    destruct (above_dec h c1 m G Lm) as [B|B].
    + destruct (Nat.eq_dec m c1) as [->|H1].
      { left. apply (un_rest _ _ _ _ _ U). intros (_ & H). apply H. reflexivity. }
      destruct (un_move _ _ _ _ _ U m (conj B H1)) as [E|(q & E & Bq)]; [left; exact E|right].
      exists q. split; [exact E|]. apply (above_trans _ d e q); [|exact Bq].
      apply (Up e); [exact Le|left; exact (proj2 Ie1)|]. exact (above_up h e d G Pe).
    + left. apply (un_rest _ _ _ _ _ U). intros (B' & _). exact (B B').
  - intros [|y ys] m.
    + split; [intros H; inversion H; subst; left; constructor; exact Ld|].
      intros [H|((? & [=]) & _)]. inversion H; subst. constructor. apply Lv. exact Ld.
    + split.
      * intros H. inversion H as [|? w ? ? ? P Ex H']; subst. rewrite Nn in Ex. apply Dch in P; [|auto].
        destruct (Nat.eq_dec w e) as [->|Hw].
        -- assert (y = x) by congruence. subst y. apply (un_to _ _ _ _ _ U) in H' as [H'|(_ & H' & K)].
           ++ left. apply Ate. exact H'.
           ++ right. split; [exists ys; reflexivity|]. split; [apply At1; exact H'|]. intros k Hk. apply (K k), Ate, Hk.
        -- left. econstructor; [exact P|exact Ex|]. apply (Other d w); auto.
      * intros [H|((zs & Ez) & H & K)].
        -- inversion H as [|? w ? ? ? P Ex H']; subst. econstructor; [apply Dch; [auto|exact P]|rewrite Nn; exact Ex|].
           destruct (Nat.eq_dec w e) as [->|Hw]; [apply (un_to _ _ _ _ _ U); left; exact H'|]. apply (Other d w); auto.
        -- injection Ez as -> ->. apply At1 in H. econstructor; [apply Dch; [auto|exact Pe]|rewrite Nn; exact Ee|].
           apply (un_to _ _ _ _ _ U). right. split; [exact I|]. split; [exact H|]. intros k Hk. apply (K k), Ate, Hk.
  - intros [|y ys] m.
    + split; [intros H; inversion H; subst; split; [constructor; exact Lc|intros (? & [=])]|].
      intros (H & _). inversion H; subst. constructor. apply Lv. exact Lc.
    + split.
      * intros H. inversion H as [|? w ? ? ? P Ex H']; subst. rewrite Nn in Ex. apply Dch in P; [|auto].
        destruct (Nat.eq_dec w c1) as [->|Hw].
        -- assert (y = x) by congruence. subst y. apply (un_from _ _ _ _ _ U) in H' as (H' & K).
           split; [apply At1; exact H'|]. intros _. destruct (K I) as (k & Hk). exists k. apply Ate, Hk.
        -- split; [econstructor; [exact P|exact Ex|]; apply (Other c w); auto|].
           intros (zs & [= -> ->]). exfalso. apply Hw. exact (det_one h c w c1 x Dc P P1 Ex E1).
      * intros (H & K). inversion H as [|? w ? ? ? P Ex H']; subst.
        econstructor; [apply Dch; [auto|exact P]|rewrite Nn; exact Ex|].
        destruct (Nat.eq_dec w c1) as [->|Hw]; [|apply (Other c w); auto].
        assert (y = x) by congruence. subst y. apply (un_from _ _ _ _ _ U). split; [exact H'|]. intros _.
        destruct K as (k & K); [exists ys; reflexivity|]. exists k. apply Ate, K.
Qed.

(** ** All children *)

Definition first_in (l : list str) (xs : list str) : Prop := exists x ys, In x l /\ xs = x :: ys.

Lemma united_refl h d c : grown h -> live h d -> live h c -> united (first_in []) h h d c.
Proof.
  intros G Ld Lc. constructor; auto.
  - intros xs m. split; [auto|]. intros [H|((x & ys & [] & _) & _)]. exact H.
  - intros xs m. split; [|tauto]. intros H. split; [exact H|]. intros (x & ys & [] & _).
Qed.

Lemma united_det L h h' d c : united L h h' d c -> det h d -> det h c -> det h' d /\ det h' c.
Proof.
  intros U Dd Dc. split; intros xs a b A B.
  - apply (un_to _ _ _ _ _ U) in A. apply (un_to _ _ _ _ _ U) in B.
    destruct A as [A|(_ & A & Na)], B as [B|(_ & B & Nb)].
    + exact (Dd xs a b A B).
    + exfalso. exact (Nb a A).
    + exfalso. exact (Na b B).
    + exact (Dc xs a b A B).
  - apply (un_from _ _ _ _ _ U) in A as (A & _). apply (un_from _ _ _ _ _ U) in B as (B & _). exact (Dc xs a b A B).
Qed.

Lemma united_incomparable L h h' d c : united L h h' d c -> grown h -> live h d -> live h c -> incomparable h d c -> incomparable h' d c.
Proof.
  intros U G Ld Lc (I1 & I2). split.
  - rewrite (united_up _ _ _ _ _ c U G Lc); [exact I1|]. intros (_ & H). apply H. reflexivity.
  - rewrite (united_up _ _ _ _ _ d U G Ld); [exact I2|]. intros (A & _). exact (I2 A).
Qed.

Lemma united_trans x l h h1 h' d c : grown h -> live h d -> live h c -> incomparable h d c -> ~ In x l ->
  united (first_is x) h h1 d c -> united (first_in l) h1 h' d c -> united (first_in (x :: l)) h h' d c.
Proof.
  intros G Ld Lc Inc N U V.
  assert (G1 := un_grown _ _ _ _ _ U).
  assert (Inc1 := united_incomparable _ _ _ _ _ U G Ld Lc Inc).
  assert (Ld1 : live h1 d) by (apply (united_live _ _ _ _ _ _ U); exact Ld).
  assert (Lc1 : live h1 c) by (apply (united_live _ _ _ _ _ _ U); exact Lc).
  assert (St : forall m, strictly h1 c m -> strictly h c m).
  { intros m (A & Hm). split; [|exact Hm]. apply (above_at_path h1 c m G1) in A as (xs & A).
    apply (un_from _ _ _ _ _ U) in A as (A & _). exact (at_path_above h c xs m G A). }
  constructor.
  - exact (un_grown _ _ _ _ _ V).
  - intros m. rewrite (un_data _ _ _ _ _ V). exact (un_data _ _ _ _ _ U m).
  - intros m Hm. rewrite (un_rest _ _ _ _ _ V); [exact (un_rest _ _ _ _ _ U m Hm)|]. intros H. exact (Hm (St m H)).
  - intros m Hm.
    assert (Lm1 : live h1 m) by (apply (united_live _ _ _ _ _ _ U); exact (above_live _ _ _ (proj1 Hm))).
    assert (Nw : forall q, above h1 d q -> above h' d q).
    { intros q A. apply (united_up _ _ _ _ _ q V G1 (above_live _ _ _ A)); [|exact A].
      intros (B & _). destruct (above_chain _ _ _ _ A B); [exact (proj1 Inc1 H)|exact (proj2 Inc1 H)]. }
    destruct (above_dec h1 c m G1 Lm1) as [A|A].
    + destruct (un_move _ _ _ _ _ V m (conj A (proj2 Hm))) as [E|E]; [|right; exact E].
      rewrite E. destruct (un_move _ _ _ _ _ U m Hm) as [E1|(q & E1 & B)]; [left; exact E1|].
      right. exists q. split; [exact E1|apply Nw, B].
    + rewrite (un_rest _ _ _ _ _ V m); [|intros (B & _); exact (A B)].
      destruct (un_move _ _ _ _ _ U m Hm) as [E1|(q & E1 & B)]; [left; exact E1|].
      right. exists q. split; [exact E1|apply Nw, B].
  - intros xs m. rewrite (un_to _ _ _ _ _ V), (un_to _ _ _ _ _ U), (un_from _ _ _ _ _ U). split.
    + intros [[H|((ys & ->) & H & K)]|((y & ys & I & ->) & (H & _) & K)].
      * left. exact H.
      * right. split; [exists x, ys; split; [left; reflexivity|reflexivity]|]. auto.
      * right. split; [exists y, ys; split; [right; exact I|reflexivity]|]. split; [exact H|].
        intros k Hk. apply (K k). apply (un_to _ _ _ _ _ U). left. exact Hk.
    + intros [H|((y & ys & [<-|I] & ->) & H & K)].
      * left. left. exact H.
      * left. right. split; [exists ys; reflexivity|]. auto.
      * right. split; [exists y, ys; auto|]. split.
        -- split; [exact H|]. intros (zs & [= -> _]). contradiction.
        -- intros k Hk. apply (un_to _ _ _ _ _ U) in Hk as [Hk|((zs & [= -> _]) & _)]; [exact (K k Hk)|contradiction].
  - intros xs m. rewrite (un_from _ _ _ _ _ V), (un_from _ _ _ _ _ U). split.
    + intros ((H & K1) & K2). split; [exact H|]. intros (y & ys & [<-|I] & ->); [apply K1; exists ys; reflexivity|].
      destruct K2 as (k & Hk); [exists y, ys; auto|].
      apply (un_to _ _ _ _ _ U) in Hk as [Hk|((zs & [= -> _]) & _)]; [exists k; exact Hk|contradiction].
    + intros (H & K). split; [split; [exact H|]|].
      * intros (ys & ->). apply K. exists x, ys. split; [left; reflexivity|reflexivity].
      * intros (y & ys & I & ->). destruct K as (k & Hk); [exists y, ys; split; [right; exact I|reflexivity]|].
        exists k. apply (un_to _ _ _ _ _ U). left. exact Hk.
Qed.

(** What the recursive call is known to do. *)
Definition rec_ok (rec : heap (frame T) -> nat -> nat -> res (heap (frame T))) (N K : nat) : Prop :=
  forall h d c l x, grown h -> live h d -> live h c -> incomparable h d c -> det h d -> det h c ->
    node_name h d = Ok x -> node_name h c = Ok x -> (forall m, live h m -> m < N) -> path h c l -> K <= List.length l ->
    exists h', rec h d c = Ok h' /\ united (fun _ => True) h h' d c.

Lemma united_path L h h' d c l : united L h h' d c -> grown h -> path h c l -> path h' c l.
Proof.
  intros U G P.
  assert (X : forall n k, path h n k -> (forall m, In m k -> ~ strictly h c m) -> path h' n k).
  { induction 1 as [n Pn|n p k Pn Hk IH]; intros A.
    - constructor. rewrite (un_rest _ _ _ _ _ U); [exact Pn|]. apply A. left. reflexivity.
    - econstructor; [rewrite (un_rest _ _ _ _ _ U); [exact Pn|]; apply A; left; reflexivity|].
      apply IH. intros m I. apply A. right. exact I. }
  apply X; [exact P|]. intros m I (A & Hm). apply Hm. apply (above_anti h m c G); [|exact A].
  exact (proj1 (path_above h c l P m) I).
Qed.

Lemma each_ok rec N K d c : rec_ok rec N (S K) -> forall src tgt, NoDup (names src) -> NoDup (names tgt) ->
  forall h l, grown h -> live h d -> live h c -> incomparable h d c -> det h d -> det h c ->
  (forall m, live h m -> m < N) -> path h c l -> K <= List.length l ->
  (forall c1 x, In (c1, x) src -> parent h c1 = Ok (Some c) /\ node_name h c1 = Ok x) ->
  (forall e x, In x (names src) -> (In (e, x) tgt <-> parent h e = Ok (Some d) /\ node_name h e = Ok x)) ->
  exists h', each rec h d src tgt = Ok h' /\ united (first_in (names src)) h h' d c.
Proof.
  intros R. induction src as [|(c1, x) src IH]; intros tgt NDs NDt h l G Ld Lc Inc Dd Dc Bd Pc Kl Src Tgt; cbn [each].
  - exists h. split; [reflexivity|]. apply united_refl; assumption.
  - cbn [names map snd] in NDs. inversion NDs as [|? ? Nx NDs']; subst.
    destruct (Src c1 x (or_introl eq_refl)) as (P1 & E1).
    assert (Step : exists h1, match called x tgt with None => set_parent h c1 (Some d) | Some e => rec h e c1 end = Ok h1 /\
              united (first_is x) h h1 d c).
    { destruct (called x tgt) as [e|] eqn:C.
      - apply (called_spec tgt NDt) in C. apply (Tgt e x (or_introl eq_refl)) in C as (Pe & Ee).
        assert (I1d : incomparable h c1 d) by (apply (incomparable_child h c d); auto; apply incomparable_sym, Inc).
        destruct (R h e c1 (c1 :: l) x) as (h1 & E & U); auto.
        + exact (parent_live _ _ _ Pe).
        + exact (parent_live _ _ _ P1).
        + apply (incomparable_child h d c1 e G); [apply incomparable_sym, I1d|exact Pe].
        + exact (det_child h d e Dd Pe).
        + exact (det_child h c c1 Dc P1).
        + econstructor; eassumption.
        + cbn [List.length]. lia.
        + exists h1. split; [exact E|]. apply (matched_united h h1 d c e c1 x); assumption.
      - apply (moved_united h d c c1 x); auto. intros e Pe Ee.
        apply called_in in C. apply C. apply (in_map snd tgt (e, x)). apply Tgt; [left; reflexivity|auto]. }
    destruct Step as (h1 & -> & U). cbn [bind].
    destruct (united_det _ _ _ _ _ U Dd Dc) as (Dd1 & Dc1).
    destruct (IH tgt NDs' NDt h1 l) as (h' & E & V); auto.
    + exact (un_grown _ _ _ _ _ U).
    + apply (united_live _ _ _ _ _ _ U); exact Ld.
    + apply (united_live _ _ _ _ _ _ U); exact Lc.
    + exact (united_incomparable _ _ _ _ _ U G Ld Lc Inc).
    + intros m Lm. apply Bd. apply (united_live _ _ _ _ _ _ U). exact Lm.
    + exact (united_path _ _ _ _ _ _ U G Pc).
    + intros c2 y I2. destruct (Src c2 y (or_intror I2)) as (P2 & E2).
      assert (Hyx : y <> x) by (intros ->; apply Nx, (in_map snd src (c2, x)), I2).
      assert (A2 : at_path h1 c [y] c2).
      { apply (un_from _ _ _ _ _ U). split.
        - econstructor; [exact P2|exact E2|]. constructor. exact (parent_live _ _ _ P2).
        - intros (ys & [= -> _]). contradiction. }
      inversion A2 as [|? w ? ? ? Pw Ew Hw]; subst. inversion Hw; subst. auto.
    + intros e y I2. assert (Hyx : y <> x) by (intros ->; apply Nx, I2).
      rewrite (Tgt e y (or_intror I2)). rewrite (united_name _ _ _ _ _ e U).
      assert (X : at_path h1 d [y] e <-> at_path h d [y] e).
      { rewrite (un_to _ _ _ _ _ U). split; [intros [H|((ys & [= -> _]) & _)]; [exact H|contradiction]|auto]. }
      split; intros (Pe & Ee); (split; [|exact Ee]).
      * assert (A : at_path h d [y] e) by (econstructor; [exact Pe|exact Ee|constructor; exact (parent_live _ _ _ Pe)]).
        apply X in A. inversion A as [|? w ? ? ? Pw Ew Hw]; subst. inversion Hw; subst. exact Pw.
      * assert (A : at_path h1 d [y] e).
        { econstructor; [exact Pe|rewrite (united_name _ _ _ _ _ e U); exact Ee|constructor; exact (parent_live _ _ _ Pe)]. }
        apply X in A. inversion A as [|? w ? ? ? Pw Ew Hw]; subst. inversion Hw; subst. exact Pw.
    + exists h'. split; [exact E|]. exact (united_trans x (names src) h h1 h' d c G Ld Lc Inc Nx U V).
Qed.

Lemma with_names_ok h l : (forall n, In n l -> live h n) ->
  exists m, with_names h l = Ok m /\ (forall n x, In (n, x) m <-> In n l /\ node_name h n = Ok x) /\ map fst m = l.
Proof.
  induction l as [|n l IH]; intros A; cbn [with_names].
  - exists []. split; [reflexivity|]. split; [cbn [In]; tauto|reflexivity].
  - destruct (name_live h n (A n (or_introl eq_refl))) as (x & E). rewrite E. cbn [bind].
    destruct IH as (m & -> & Hm & Ef); [intros k I; apply A; right; exact I|]. cbn [bind].
    exists ((n, x) :: m). split; [reflexivity|]. split; [|cbn [map fst]; f_equal; exact Ef].
    intros k y. cbn [In]. rewrite Hm. split.
    + intros [[= -> ->]|(I & E')]; auto.
    + intros ([->|I] & E'); [left; congruence|right; auto].
Qed.

Lemma names_nodup h n m : det h n -> NoDup (map fst m) ->
  (forall k x, In (k, x) m -> parent h k = Ok (Some n) /\ node_name h k = Ok x) -> NoDup (names m).
Proof.
  intros Dn. induction m as [|(k, x) m IH]; cbn [map fst snd names]; intros ND A; [constructor|].
  inversion ND as [|? ? N ND']; subst. constructor; [|apply IH; [exact ND'|intros; apply A; right; assumption]].
  intros I. apply in_map_iff in I as ((k', x') & Ex & I). cbn [snd] in Ex. subst x'.
  destruct (A k x (or_introl eq_refl)) as (P & E). destruct (A k' x (or_intror I)) as (P' & E').
  apply N. rewrite (det_one h n k k' x Dn P P' E E'). apply (in_map fst m (k', x)). exact I.
Qed.

Lemma merge_fuel_ok fuel : forall N K, N < K + fuel -> rec_ok (merge_fuel fuel) N K.
Proof.
  induction fuel as [|fuel IH]; intros N K Hf h d c l x G Ld Lc Inc Dd Dc Ed Ec Bd Pc Kl.
  - exfalso. assert (List.length l <= N); [|lia]. rewrite <- (seq_length N 0).
    apply NoDup_incl_length; [exact (path_nodup h c l Pc)|]. intros m I. apply in_seq.
    assert (m < N); [|lia]. apply Bd. exact (above_live_top _ _ _ (proj1 (path_above h c l Pc m) I)).
  - cbn [merge_fuel]. rewrite Ed, Ec. cbn [bind]. rewrite str_eqb_refl.
    destruct (links h c G Lc) as (cs & Ecs & NDc & Hc). rewrite Ecs. cbn [bind].
    destruct (links h d G Ld) as (ds & Eds & NDd & Hd).
    (* the listed paths are all paths that lead somewhere *)
    assert (Fin : forall src h', (forall k y, parent h k = Ok (Some c) -> node_name h k = Ok y -> In y src) ->
              united (first_in src) h h' d c -> united (fun _ => True) h h' d c).
    { intros src h' All U. constructor; try apply U.
      - intros xs m. rewrite (un_to _ _ _ _ _ U). split; [tauto|]. intros [H|(_ & H & K1)]; [auto|].
        right. split; [|auto]. inversion H as [|? w y ys ? P E H']; subst.
        + exfalso. apply (K1 d). constructor. exact Ld.
        + exists y, ys. split; [exact (All w y P E)|reflexivity].
      - intros xs m. rewrite (un_from _ _ _ _ _ U). split; [|tauto]. intros (H & K1). split; [exact H|]. intros _.
        inversion H as [|? w y ys ? P E H']; subst.
        + exists d. constructor. exact Ld.
        + apply K1. exists y, ys. split; [exact (All w y P E)|reflexivity]. }
    destruct cs as [|c0 cs0].
    + exists h. split; [reflexivity|]. apply (Fin []); [|apply united_refl; assumption].
      intros k y P _. apply Hc in P. destruct P.
    + set (cs := c0 :: cs0) in *. clearbody cs. rewrite Eds. cbn [bind].
      destruct (with_names_ok h cs) as (src & Es & Hs & Fs); [intros n I; apply Hc in I; exact (parent_live _ _ _ I)|].
      destruct (with_names_ok h ds) as (tgt & Et & Ht & Ft); [intros n I; apply Hd in I; exact (parent_live _ _ _ I)|].
      rewrite Es, Et. cbn [bind].
      assert (Hs' : forall k y, In (k, y) src <-> parent h k = Ok (Some c) /\ node_name h k = Ok y) by (intros; rewrite Hs, Hc; tauto).
      assert (Ht' : forall k y, In (k, y) tgt <-> parent h k = Ok (Some d) /\ node_name h k = Ok y) by (intros; rewrite Ht, Hd; tauto).
      assert (Ns : NoDup (names src)) by (apply (names_nodup h c); [exact Dc|rewrite Fs; exact NDc|intros; apply Hs'; assumption]).
      assert (Nt : NoDup (names tgt)) by (apply (names_nodup h d); [exact Dd|rewrite Ft; exact NDd|intros; apply Ht'; assumption]).
      pose proof (sort_perm src) as Ps. pose proof (sort_perm tgt) as Pt.
      rewrite (merge_loop_each (merge_fuel fuel) d (sort_by_name src) (sort_sorted src Ns) h [] (sort_by_name tgt) (sort_sorted tgt Nt))
        by (intros ? ? ? []).
      cbn [app].
      destruct (each_ok (merge_fuel fuel) N K d c (IH N (S K) ltac:(lia)) (sort_by_name src) (sort_by_name tgt)) with (h := h) (l := l)
        as (h' & E & U); auto.
      * exact (Permutation_NoDup (Permutation_map snd Ps) Ns).
      * exact (Permutation_NoDup (Permutation_map snd Pt) Nt).
      * intros k y I. apply Hs'. exact (Permutation_in _ (Permutation_sym Ps) I).
      * intros k y _. rewrite <- Ht'. split; apply Permutation_in; [apply Permutation_sym|]; exact Pt.
      * exists h'. split; [exact E|]. apply (Fin (names (sort_by_name src))); [|exact U].
        intros k y P Ey. apply (in_map snd (sort_by_name src) (k, y)). apply (Permutation_in _ Ps). apply Hs'. auto.
Qed.

Lemma merge_ok h d c x : grown h -> live h d -> live h c -> incomparable h d c -> det h d -> det h c ->
  node_name h d = Ok x -> node_name h c = Ok x ->
  exists h', merge_frame_trees h d c = Ok h' /\ united (fun _ => True) h h' d c.
Proof.
  intros G Ld Lc Inc Dd Dc Ed Ec. destruct (grown_path h G c Lc) as (l & Pl).
  assert (Kl : 1 <= List.length l) by (destruct (path_head h c l Pl) as (l' & ->); cbn [List.length]; lia).
  refine (merge_fuel_ok (S (List.length h)) (List.length h) 1 _ h d c l x G Ld Lc Inc Dd Dc Ed Ec _ Pl Kl); [lia|].
  intros m Lm. apply live_lk in Lm as (nd & L). unfold lk in L.
  destruct (nth_error h m) eqn:E; [|discriminate]. apply nth_error_Some. congruence.
Qed.
End Merge.
