(** Find and replace: proofs. *)
From Verif Require Import Lib.Base Lib.Lists Lib.Str StrRep.Model StrRep.Spec.
From Coq Require Import List Arith Bool Ascii String Lia.
Import ListNotations.
Open Scope list_scope.

Notation len := (@List.length ascii).

Lemma skipn_len (a b : str) : skipn (len a) (a ++ b) = b.
Proof. rewrite skipn_app, skipn_all, Nat.sub_diag. reflexivity. Qed.

Lemma firstn_len (a b : str) : firstn (len a) (a ++ b) = a.
Proof. rewrite firstn_app, Nat.sub_diag, firstn_all. cbn [firstn]. apply app_nil_r. Qed.

Lemma sfind_cases f s :
  (sfind f s = None /\ ~ occurs f s) \/ exists a b, sfind f s = Some (len a) /\ leftmost f s a b.
Proof.
  destruct (sfind f s) as [n|] eqn:E.
  - right. destruct (sfind_some _ _ _ E) as (a & b & E1 & <- & M). exists a, b. split; [reflexivity|]. split; [exact E1|exact M].
  - left. split; [reflexivity|]. intros (a & b & E1). exact (sfind_none _ _ E a b E1).
Qed.

Lemma leftmost_unique f s a b a' b' : leftmost f s a b -> leftmost f s a' b' -> a = a' /\ b = b'.
Proof.
  intros (E & M) (E' & M'). pose proof (M _ _ E') as L1. pose proof (M' _ _ E) as L2.
  assert (L : len a = len a') by lia.
  assert (Ea : a = a') by (rewrite <- (firstn_len a (f ++ b)), <- E, E', L; apply firstn_len).
  subst a'. split; [reflexivity|]. rewrite E in E'. apply app_inv_head in E'. apply app_inv_head in E'. exact E'.
Qed.

Lemma find_from_app d s f : find_from (d ++ s) f (len d) = option_map (Nat.add (len d)) (sfind f s).
Proof.
  unfold find_from. rewrite app_length, skipn_len. destruct (Nat.leb_spec (len d) (len d + len s)); [reflexivity|lia].
Qed.

Lemma replace_at_app d a f b r : replace_at (d ++ a ++ f ++ b) (len d + len a) (len f) r = d ++ a ++ r ++ b.
Proof.
  unfold replace_at. rewrite <- app_length. rewrite (app_assoc d a (f ++ b)), firstn_len.
  replace (len (d ++ a) + len f) with (len ((d ++ a) ++ f)) by (rewrite app_length; lia).
  rewrite (app_assoc (d ++ a) f b), skipn_len. rewrite <- app_assoc. reflexivity.
Qed.

(** One round, with what has been passed over on the left. *)
Lemma round_none fuel d s f r n : ~ occurs f s -> replace_loop (S fuel) (d ++ s) f r (len d) n = Ok (d ++ s, n).
Proof.
  intros N. cbn [replace_loop]. rewrite find_from_app. destruct (sfind_cases f s) as [(-> & _)|(a & b & _ & E & _)]; [reflexivity|].
  exfalso. apply N. exists a, b. exact E.
Qed.

Lemma round_some fuel d s f r n a b : leftmost f s a b ->
  replace_loop (S fuel) (d ++ s) f r (len d) n = replace_loop fuel (d ++ a ++ r ++ b) f r (len d + len a + 1) (n + 1).
Proof.
  intros M. cbn [replace_loop]. rewrite find_from_app.
  destruct (sfind_cases f s) as [(_ & N)|(a' & b' & -> & M')]; [exfalso; apply N; exists a, b; apply M|].
  destruct (leftmost_unique _ _ _ _ _ _ M M') as (<- & <-). cbn [option_map]. destruct M as (-> & _).
  rewrite replace_at_app. reflexivity.
Qed.

Lemma round_cons fuel d s f c r n a b : leftmost f s a b ->
  replace_loop (S fuel) (d ++ s) f (c :: r) (len d) n = replace_loop fuel ((d ++ a ++ [c]) ++ r ++ b) f (c :: r) (len (d ++ a ++ [c])) (n + 1).
Proof.
  intros M. rewrite (round_some _ _ _ _ _ _ a b M). rewrite !app_length. cbn [List.length].
  replace (len d + (len a + 1)) with (len d + len a + 1) by lia. f_equal. rewrite <- !app_assoc. reflexivity.
Qed.

(** No occurrence begins in a stretch without the first character. *)
Lemma leftmost_skip f0 f w t :
  ~ In f0 w ->
  (~ occurs (f0 :: f) t -> ~ occurs (f0 :: f) (w ++ t)) /\
  (forall a b, leftmost (f0 :: f) t a b -> leftmost (f0 :: f) (w ++ t) (w ++ a) b).
Proof.
  intros N. assert (Sk : forall a b, w ++ t = a ++ (f0 :: f) ++ b -> exists a', a = w ++ a' /\ t = a' ++ (f0 :: f) ++ b).
  { clear - N. induction w as [|c w IH]; intros a b E; [exists a; auto|].
    destruct a as [|c' a].
    - cbn [app] in E. injection E as -> _. exfalso. apply N. left. reflexivity.
    - cbn [app] in E. injection E as <- E. destruct (IH (fun J => N (or_intror J)) a b E) as (a' & -> & Et). exists a'. auto. }
  split.
  - intros No (a & b & E). destruct (Sk a b E) as (a' & _ & Et). apply No. exists a', b. exact Et.
  - intros a b (-> & M). split; [rewrite <- app_assoc; reflexivity|]. intros a' b' E. destruct (Sk a' b' E) as (a2 & -> & Et).
    rewrite !app_length. specialize (M _ _ Et). lia.
Qed.

Lemma replace_loop_spec f0 f c r : ~ In f0 r -> forall m fuel d w t n, len t <= m -> m < fuel -> ~ In f0 w ->
  exists t' k, replace_loop fuel (d ++ w ++ t) (f0 :: f) (c :: r) (len d) n = Ok (d ++ w ++ t', n + k) /\ replaced (f0 :: f) (c :: r) t t' k.
Proof.
  intros Nr. induction m as [|m IH]; intros fuel d w t n Hm Hf Nw; (destruct fuel as [|fuel]; [lia|]);
    destruct (leftmost_skip f0 f w t Nw) as (S1 & S2); destruct (sfind_cases (f0 :: f) t) as [(_ & N)|(a & b & _ & M)].
  - exists t, 0. rewrite round_none by (apply S1; exact N). rewrite Nat.add_0_r. split; [reflexivity|constructor; exact N].
  - destruct M as (E & _). rewrite E, !app_length in Hm. cbn [List.length] in Hm. lia.
  - exists t, 0. rewrite round_none by (apply S1; exact N). rewrite Nat.add_0_r. split; [reflexivity|constructor; exact N].
  - rewrite (round_cons _ _ _ _ _ _ _ (w ++ a) b) by (apply S2; exact M).
    assert (Hb : len b <= m).
    { destruct M as (E & _). rewrite E, !app_length in Hm. cbn [List.length] in Hm. lia. }
    destruct (IH fuel (d ++ (w ++ a) ++ [c]) r b (n + 1) Hb ltac:(lia) Nr) as (b' & k & E & R).
    exists (a ++ (c :: r) ++ b'), (S k). split; [|econstructor; [exact M|exact R]].
    rewrite E. f_equal. f_equal; [|lia]. rewrite <- !app_assoc. reflexivity.
Qed.

Lemma erase_loop_spec f : f <> [] -> forall m fuel d t n, len t <= m -> m + 1 < fuel ->
  exists t' k, replace_loop fuel (d ++ t) f [] (len d) n = Ok (d ++ t', n + k) /\ erased f t t' k.
Proof.
  intros Nf. induction m as [m IH] using lt_wf_ind. intros fuel d t n Hm Hf. destruct fuel as [|fuel]; [lia|].
  destruct (sfind_cases f t) as [(_ & N)|(a & b & _ & M)].
  - exists t, 0. rewrite round_none by exact N. rewrite Nat.add_0_r. split; [reflexivity|constructor; exact N].
  - rewrite (round_some _ _ _ _ _ _ a b M). cbn [app]. destruct b as [|c b].
    + exists a, 1. split; [|apply erased_last; exact M]. destruct fuel as [|fuel]; [lia|]. cbn [replace_loop].
      unfold find_from. rewrite !app_nil_r, app_length. destruct (Nat.leb_spec (len d + len a + 1) (len d + len a)); [lia|reflexivity].
    + assert (Hl : len t = len a + len f + S (len b)) by (destruct M as (-> & _); rewrite !app_length; cbn [List.length]; lia).
      assert (Lf : 0 < len f) by (destruct f; [congruence|cbn [List.length]; lia]).
      destruct (IH (len b) ltac:(lia) fuel (d ++ a ++ [c]) b (n + 1) ltac:(lia) ltac:(lia)) as (b' & k & E & R).
      exists (a ++ c :: b'), (S k). split; [|eapply erased_some; [exact M|exact R]].
      rewrite !app_length in E. cbn [List.length] in E. replace (len d + (len a + 1)) with (len d + len a + 1) in E by lia.
      rewrite <- !app_assoc in E. cbn [app] in E. rewrite E. f_equal. f_equal. lia.
Qed.

(** ** Termination *)

Lemma occurs_suffix f w v : occurs f w -> occurs f (v ++ w).
Proof. intros (a & b & ->). exists (v ++ a), b. rewrite <- app_assoc. reflexivity. Qed.

Lemma terminates_loop f c r : ~ occurs f r -> forall m fuel d w t n, len t <= m -> m < fuel -> (exists v, r = v ++ w) \/ w = [] ->
  exists x, replace_loop fuel (d ++ w ++ t) f (c :: r) (len d) n = Ok x.
Proof.
  intros Nr. induction m as [m IH] using lt_wf_ind. intros fuel d w t n Hm Hf Hw. destruct fuel as [|fuel]; [lia|].
  destruct (sfind_cases f (w ++ t)) as [(_ & N)|(a & b & _ & M)].
  - eexists. apply round_none. exact N.
  - rewrite (round_cons _ _ _ _ _ _ _ a b M).
    assert (Nw : ~ occurs f w).
    { intros O. apply Nr. destruct Hw as [(v & ->)| ->]; [apply occurs_suffix; exact O|].
      destruct O as (x & y & E). destruct x; [|discriminate]. destruct f; [|discriminate]. exists r, []. rewrite !app_nil_r. reflexivity. }
    assert (Hb : len b < len t).
    { destruct M as (E & _). destruct (Nat.lt_ge_cases (len b) (len t)) as [L|L]; [exact L|]. exfalso. apply Nw.
      assert (El : len (w ++ t) = len (a ++ f ++ b)) by (f_equal; exact E). rewrite !app_length in El.
      exists a, (skipn (len a + len f) w).
      assert (X : firstn (len a + len f) w = a ++ f).
      { transitivity (firstn (len a + len f) (w ++ t)).
        - rewrite firstn_app. replace (len a + len f - len w) with 0 by lia. cbn [firstn]. rewrite app_nil_r. reflexivity.
        - rewrite E, app_assoc, <- app_length, firstn_len. reflexivity. }
      rewrite app_assoc, <- X. symmetry. apply firstn_skipn. }
    apply (IH (len b)); [lia|lia|lia|]. left. exists []. reflexivity.
Qed.

Lemma diverges_loop f c r : occurs f r -> forall fuel d s n, occurs f s ->
  replace_loop fuel (d ++ s) f (c :: r) (len d) n = UB NoTerm.
Proof.
  intros O. induction fuel as [|fuel IH]; intros d s n Os; [reflexivity|].
  destruct (sfind_cases f s) as [(_ & N)|(a & b & _ & M)]; [contradiction|].
  rewrite (round_cons _ _ _ _ _ _ _ a b M). apply IH. destruct O as (x & y & ->). exists x, (y ++ b). rewrite <- !app_assoc. reflexivity.
Qed.

Lemma fuel_more f r : forall fuel s pos n x, replace_loop fuel s f r pos n = Ok x -> forall fuel', fuel <= fuel' -> replace_loop fuel' s f r pos n = Ok x.
Proof.
  induction fuel as [|fuel IH]; intros s pos n x E fuel' L; [discriminate|]. destruct fuel' as [|fuel']; [lia|].
  cbn [replace_loop] in *. destruct (find_from s f pos); [|exact E]. eapply IH; [exact E|lia].
Qed.

(** ** The specifications are functions *)

Lemma leftmost_occurs f s a b : leftmost f s a b -> occurs f s.
Proof. intros (E & _). exists a, b. exact E. Qed.

Lemma replaced_fun f r s t n : replaced f r s t n -> forall t' n', replaced f r s t' n' -> t = t' /\ n = n'.
Proof.
  induction 1 as [s N|s a b b1 n M R IH]; intros t' n' R'; inversion R' as [s' N' |s' a' b' b2 n2 M' R2]; subst.
  - auto.
  - exfalso. apply N. eapply leftmost_occurs. exact M'.
  - exfalso. apply N'. eapply leftmost_occurs. exact M.
  - destruct (leftmost_unique _ _ _ _ _ _ M M') as (<- & <-). destruct (IH _ _ R2) as (<- & <-). auto.
Qed.

(** Passing over one character that begins no occurrence. *)
Lemma leftmost_cons f c s a b : starts f (c :: s) = false -> leftmost f s a b -> leftmost f (c :: s) (c :: a) b.
Proof.
  intros Ns (-> & M). split; [reflexivity|]. intros a' b' E. destruct a' as [|c' a'].
  - assert (starts f (c :: a ++ f ++ b) = true) by (apply starts_spec; exists b'; exact E). congruence.
  - cbn [app] in E. injection E as <- E. specialize (M _ _ E). cbn [List.length]. lia.
Qed.

Lemma replaced_cons f r c s s' n : starts f (c :: s) = false -> replaced f r s s' n -> replaced f r (c :: s) (c :: s') n.
Proof.
  intros Ns R. inversion R as [x N|x a b b' k M R']; subst.
  - apply replaced_none. intros (a & b & E). destruct a as [|c' a].
    + assert (starts f (c :: s') = true) by (apply starts_spec; exists b; exact E). congruence.
    + cbn [app] in E. injection E as <- E. apply N. exists a, b. exact E.
  - change (c :: a ++ r ++ b') with ((c :: a) ++ r ++ b'). eapply replaced_some; [|exact R']. apply leftmost_cons; assumption.
Qed.

Lemma erased_replaced f s s' n : f <> [] -> erased f s s' n -> ~ occurs (f ++ f) s -> replaced f [] s s' n.
Proof.
  intros Nf. induction 1 as [s N|s a M|s a c b b' n M R IH]; intros Ns.
  - constructor. exact N.
  - rewrite <- (app_nil_r a). change (replaced f [] s (a ++ [] ++ []) 1). eapply replaced_some; [exact M|]. constructor.
    intros (x & y & E). destruct x; [|discriminate]. destruct f; [congruence|discriminate].
  - change (a ++ c :: b') with (a ++ [] ++ (c :: b')). eapply replaced_some; [exact M|].
    assert (E : s = a ++ f ++ c :: b) by apply M. apply replaced_cons.
    + destruct (starts f (c :: b)) eqn:Es; [|reflexivity]. exfalso. apply Ns. apply starts_spec in Es as (u & Eu).
      exists a, u. rewrite E, Eu, <- app_assoc. reflexivity.
    + apply IH. intros (x & y & Ex). apply Ns. exists (a ++ f ++ c :: x), y. rewrite E, Ex, <- !app_assoc. cbn [app]. reflexivity.
Qed.

(** A single character for a single character. *)
Lemma replaced_char c d : forall s, replaced [c] [d] s (map (fun x => if Ascii.eqb x c then d else x) s) (count (fun x => Ascii.eqb x c) s).
Proof.
  induction s as [|x s IH]; [apply replaced_none; intros (a & b & E); destruct a; discriminate|].
  cbn [map]. unfold count. cbn [filter]. destruct (Ascii.eqb_spec x c) as [E|E].
  - subst x. change (d :: map _ s) with ([] ++ [d] ++ map (fun x => if Ascii.eqb x c then d else x) s). cbn [List.length].
    eapply replaced_some; [|exact IH]. split; [reflexivity|]. intros. cbn [List.length]. lia.
  - apply replaced_cons; [|exact IH]. cbn [starts]. destruct (Ascii.eqb_spec c x); [congruence|reflexivity].
Qed.
