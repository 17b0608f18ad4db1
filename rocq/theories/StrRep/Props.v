(** C38: find and replace. *)
From Verif Require Import Lib.Base Lib.Lists Lib.Str StrRep.Model StrRep.Spec StrRep.Proofs.
From Coq Require Import List Arith Bool Ascii String Lia.
Import ListNotations.
Open Scope list_scope.

(** If the replacement is not empty and the first character of the text searched
    occurs in it at most at its beginning, every occurrence is replaced, and
    their number returned. *)
Theorem replace_every_occurrence s f0 f c r :
  ~ In f0 r ->
  exists s' n, (forall fuel, List.length s < fuel -> string_replace fuel s (f0 :: f) (c :: r) = Ok (s', n)) /\
    replaced (f0 :: f) (c :: r) s s' n.
Proof.
  intros N. destruct (replace_loop_spec f0 f c r N (len s) (S (len s)) [] [] s 0 (le_n _) (le_n _) (fun J => J)) as (s' & n & E & R).
  exists s', n. split; [|exact R]. intros fuel L. eapply fuel_more; [exact E|exact L].
Qed.
Print Assumptions replace_every_occurrence.

(** In particular with a replacement of one character, as all callers have. *)
Theorem replace_by_character s f0 f c :
  exists s' n, (forall fuel, List.length s < fuel -> string_replace fuel s (f0 :: f) [c] = Ok (s', n)) /\
    replaced (f0 :: f) [c] s s' n.
Proof. apply replace_every_occurrence. intros []. Qed.
Print Assumptions replace_by_character.

(** The specification allows one result. *)
Theorem replaced_unique f r s t n t' n' : replaced f r s t n -> replaced f r s t' n' -> t = t' /\ n = n'.
Proof. intros R R'. exact (replaced_fun f r s t n R t' n' R'). Qed.
Print Assumptions replaced_unique.

Example replace_ex :
  ~ In "a"%char (lit "yz") /\ string_replace 20 (lit "abcabab") (lit "ab") (lit "xyz") = Ok (lit "xyzcxyzxyz", 3) /\
  string_replace 20 (lit "a    b") (lit "  ") (lit " ") = Ok (lit "a  b", 2).
Proof. split; [|split; reflexivity]. intros [E|[E|[]]]; discriminate E. Qed.

(** Erasing passes over the character after each erased occurrence. *)
Theorem erase_every_other s f :
  f <> [] ->
  exists s' n, (forall fuel, List.length s + 1 < fuel -> string_replace fuel s f [] = Ok (s', n)) /\ erased f s s' n.
Proof.
  intros N. destruct (erase_loop_spec f N (len s) (S (len s + 1)) [] s 0 (le_n _) ltac:(lia)) as (s' & n & E & R).
  exists s', n. split; [|exact R]. intros fuel L. eapply fuel_more; [exact E|lia].
Qed.
Print Assumptions erase_every_other.

(** So every occurrence is erased if no two are next to each other. *)
Theorem erase_apart s f :
  f <> [] -> ~ occurs (f ++ f) s ->
  exists s' n, (forall fuel, List.length s + 1 < fuel -> string_replace fuel s f [] = Ok (s', n)) /\ replaced f [] s s' n.
Proof.
  intros N Na. destruct (erase_every_other s f N) as (s' & n & E & R). exists s', n. split; [exact E|].
  apply erased_replaced; assumption.
Qed.
Print Assumptions erase_apart.

Example erase_ex : string_replace 20 (lit "+proj +over +no_defs+over") (lit "+over") [] = Ok (lit "+proj  +no_defs", 2).
Proof. reflexivity. Qed.

(** Exactly when it returns: it does not if the text searched occurs both in the
    string and in the replacement after its first character. *)
Theorem replace_terminates_iff s f c r :
  (exists fuel x, string_replace fuel s f (c :: r) = Ok x) <-> ~ (occurs f s /\ occurs f r).
Proof.
  split.
  - intros (fuel & x & E) (Os & Or). unfold string_replace in E. change s with ([] ++ s) in E. change 0 with (len []) in E at 1.
    rewrite (diverges_loop f c r Or fuel [] s _ Os) in E. discriminate.
  - intros N. destruct (sfind_cases f s) as [(_ & Ns)|(a & b & _ & M)].
    + exists 1, (s, 0). exact (round_none 0 [] s f (c :: r) 0 Ns).
    + assert (Nr : ~ occurs f r) by (intros O; apply N; split; [eapply leftmost_occurs; exact M|exact O]).
      destruct (terminates_loop f c r Nr (len s) (S (len s)) [] [] s 0 (le_n _) (le_n _) (or_intror eq_refl)) as (x & E).
      exists (S (len s)), x. exact E.
Qed.
Print Assumptions replace_terminates_iff.

(** "Replacing terminates": not for "a" by "ba". *)
Theorem replace_terminates_refuted : exists s f r, f <> [] /\ forall fuel, string_replace fuel s f r = UB NoTerm.
Proof.
  exists (lit "a"), (lit "a"), (lit "ba"). split; [discriminate|]. intros fuel.
  apply (diverges_loop (lit "a") "b"%char (lit "a")) with (d := []); exists [], []; reflexivity.
Qed.
Print Assumptions replace_terminates_refuted.

(** "Every occurrence is erased": not if two are next to each other. *)
Theorem erase_all_refuted :
  ~ (forall s f, f <> [] -> exists fuel s' n, string_replace fuel s f [] = Ok (s', n) /\ replaced f [] s s' n).
Proof.
  intros H. destruct (H (lit "aa") (lit "a") ltac:(discriminate)) as (fuel & s' & n & E & R).
  assert (E2 : string_replace 3 (lit "aa") (lit "a") [] = Ok (lit "a", 1)) by reflexivity.
  assert (X : Ok (s', n) = Ok (lit "a", 1)).
  { destruct (Nat.le_ge_cases fuel 3) as [L|L].
    - rewrite <- E2. symmetry. eapply fuel_more; [exact E|exact L].
    - rewrite <- E. eapply fuel_more; [exact E2|exact L]. }
  injection X as -> ->.
  assert (R2 : replaced (lit "a") [] (lit "aa") [] 2).
  { apply (replaced_some (lit "a") [] (lit "aa") [] (lit "a") [] 1); [split; [reflexivity|intros; cbn [List.length]; lia]|].
    apply (replaced_some (lit "a") [] (lit "a") [] [] [] 0); [split; [reflexivity|intros; cbn [List.length]; lia]|].
    apply replaced_none. intros (a & b & Ea). destruct a; discriminate. }
  destruct (replaced_fun _ _ _ _ _ R _ _ R2) as (Q & _). discriminate.
Qed.
Print Assumptions erase_all_refuted.

(** "After replacing double spaces by single ones none is left" (the comments at
    GeoReference.cc 665 and 681): not if there were three. *)
Theorem replace_leaves_none_refuted :
  ~ (forall s f r s' n fuel, List.length r < List.length f -> string_replace fuel s f r = Ok (s', n) -> ~ occurs f s').
Proof.
  intros H. refine (H (lit "   ") (lit "  ") (lit " ") (lit "  ") 1 9 ltac:(cbn; lia) eq_refl _). exists [], []. reflexivity.
Qed.
Print Assumptions replace_leaves_none_refuted.

(** The separators of str_to_vec and str_to_std_vec all become spaces, and
    nothing else changes. *)
Theorem separators_become_spaces seps s fuel :
  List.length s < fuel ->
  exists s', separate fuel seps s = Ok s' /\ List.length s' = List.length s /\
    forall i c, nth_error s i = Some c -> nth_error s' i = Some (if existsb (Ascii.eqb c) seps then space else c).
Proof.
  revert s. induction seps as [|d seps IH]; intros s L; cbn [separate existsb].
  - exists s. split; [reflexivity|]. split; [reflexivity|]. auto.
  - destruct (replace_by_character s d [] space) as (t & n & E & R). rewrite (E fuel L). cbn [bind].
    destruct (replaced_fun _ _ _ _ _ R _ _ (replaced_char d space s)) as (-> & _).
    destruct (IH (map (fun x => if Ascii.eqb x d then space else x) s)) as (s' & E' & L' & H); [rewrite map_length; exact L|].
    exists s'. split; [exact E'|]. split; [rewrite L'; apply map_length|]. intros i c Ei.
    specialize (H i (if Ascii.eqb c d then space else c)). rewrite nth_error_map, Ei in H. specialize (H eq_refl). rewrite H. f_equal.
    destruct (Ascii.eqb c d); cbn [orb]; [|reflexivity]. destruct (existsb (Ascii.eqb space) seps); reflexivity.
Qed.
Print Assumptions separators_become_spaces.

Example separate_ex : separate 20 (lit ",:") (lit "1,2:3 4") = Ok (lit "1 2 3 4").
Proof. reflexivity. Qed.
