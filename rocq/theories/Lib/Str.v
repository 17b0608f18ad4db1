(** Strings as lists of characters, with the std::string operations the models
    need. *)
From Coq Require Import List ZArith Ascii String Bool Lia.
From Verif Require Import Lib.Base.
Import ListNotations.

Notation str := (list ascii).

(** Literals: [s "abc"] is a list of characters. *)
Definition lit (x : string) : str := list_ascii_of_string x.

Fixpoint str_eqb (a b : str) : bool :=
  match a, b with
  | [], [] => true
  | x :: a', y :: b' => Ascii.eqb x y && str_eqb a' b'
  | _, _ => false
  end.

Lemma str_eqb_spec a b : str_eqb a b = true <-> a = b.
Proof.
  revert b; induction a as [|x a IH]; intros [|y b]; cbn [str_eqb]; try (split; congruence).
  rewrite andb_true_iff, Ascii.eqb_eq, IH. split; [intros [-> ->]; reflexivity|].
  intros [= -> ->]; auto.
Qed.

Lemma str_eqb_refl a : str_eqb a a = true.
Proof. apply str_eqb_spec. reflexivity. Qed.

Lemma str_eqb_false a b : str_eqb a b = false <-> a <> b.
Proof.
  destruct (str_eqb a b) eqn:E.
  - apply str_eqb_spec in E. split; congruence.
  - split; [|reflexivity]. intros _ H. apply str_eqb_spec in H. congruence.
Qed.

(** [starts p t]: [p] is a prefix of [t]. *)
Fixpoint starts (p t : str) : bool :=
  match p, t with
  | [], _ => true
  | x :: p', y :: t' => Ascii.eqb x y && starts p' t'
  | _ :: _, [] => false
  end.

Lemma starts_spec p t : starts p t = true <-> exists u, t = p ++ u.
Proof.
  revert t; induction p as [|x p IH]; intros t; cbn [starts].
  - split; [intros _; exists t; reflexivity|auto].
  - destruct t as [|y t].
    + split; [discriminate|]. intros [u E]. discriminate.
    + rewrite andb_true_iff, Ascii.eqb_eq, IH. split.
      * intros [-> [u ->]]. exists u; reflexivity.
      * intros [u E]. cbn [app] in E. injection E as -> ->. split; [reflexivity|exists u; reflexivity].
Qed.

(** std::string::find(p) : position of the first occurrence of [p]. *)
Fixpoint sfind (p t : str) : option nat :=
  if starts p t then Some 0%nat
  else match t with
       | [] => None
       | _ :: t' => option_map S (sfind p t')
       end.

Lemma sfind_some p t n :
  sfind p t = Some n ->
  exists a b, t = a ++ p ++ b /\ List.length a = n /\
    (forall a' b', t = a' ++ p ++ b' -> (n <= List.length a')%nat).
Proof.
  revert n; induction t as [|c t IH]; intros n H; cbn [sfind] in H.
  - destruct (starts p []) eqn:E; [|discriminate]. injection H as <-.
    apply starts_spec in E as [u E]. exists [], u. split; [exact E|]. split; [reflexivity|lia].
  - destruct (starts p (c :: t)) eqn:E.
    + injection H as <-. apply starts_spec in E as [u E]. exists [], u.
      split; [exact E|]. split; [reflexivity|lia].
    + destruct (sfind p t) as [m|] eqn:F; [|discriminate]. cbn in H. injection H as <-.
      destruct (IH m eq_refl) as (a & b & -> & L & M).
      exists (c :: a), b. split; [reflexivity|]. split; [cbn [List.length]; lia|].
      intros [|c' a'] b' E'.
      * cbn [app] in E'. exfalso.
        assert (X : starts p (c :: a ++ p ++ b) = true) by (apply starts_spec; exists b'; exact E').
        congruence.
      * cbn [app] in E'. injection E' as <- E'. specialize (M a' b' E'). cbn [List.length]; lia.
Qed.

Lemma sfind_none p t : sfind p t = None -> forall a b, t <> a ++ p ++ b.
Proof.
  induction t as [|c t IH]; cbn [sfind]; intros H a b E.
  - destruct (starts p []) eqn:F; [discriminate|].
    assert (X : starts p [] = true); [|congruence].
    destruct a; [|discriminate]. apply starts_spec. exists b. exact E.
  - destruct (starts p (c :: t)) eqn:F; [discriminate|].
    destruct (sfind p t) eqn:G; [discriminate|].
    destruct a as [|c' a].
    + assert (X : starts p (c :: t) = true) by (apply starts_spec; exists b; exact E). congruence.
    + cbn [app] in E. injection E as <- E. exact (IH eq_refl a b E).
Qed.

(** The part of a string after the last [c], all of it if there is none, and
    what comes before it (with [c]). *)
Fixpoint after_last (c : ascii) (t : str) : str :=
  match t with
  | [] => []
  | x :: t' => if existsb (Ascii.eqb c) t then if existsb (Ascii.eqb c) t' then after_last c t' else t'
               else t
  end.

Definition upto_last (c : ascii) (t : str) : str :=
  firstn (List.length t - List.length (after_last c t)) t.

Lemma existsb_In c (t : str) : existsb (Ascii.eqb c) t = true <-> In c t.
Proof.
  rewrite existsb_exists. split.
  - intros (x & I & E). apply Ascii.eqb_eq in E. subst. exact I.
  - intros I. exists c. split; [exact I|apply Ascii.eqb_refl].
Qed.

Lemma existsb_not_In c (t : str) : existsb (Ascii.eqb c) t = false <-> ~ In c t.
Proof.
  rewrite <- existsb_In. destruct (existsb _ t); split; congruence.
Qed.

Lemma after_last_no c t : ~ In c t -> after_last c t = t.
Proof.
  intros H. destruct t as [|x t]; [reflexivity|].
  apply existsb_not_In in H. cbn [after_last]. rewrite H. reflexivity.
Qed.

Lemma after_last_split c a b : ~ In c b -> after_last c (a ++ c :: b) = b.
Proof.
  intros H. induction a as [|x a IH].
  - cbn [app after_last existsb]. rewrite Ascii.eqb_refl. cbn [orb].
    apply existsb_not_In in H. rewrite H. reflexivity.
  - assert (E : existsb (Ascii.eqb c) (a ++ c :: b) = true)
      by (apply existsb_In, in_or_app; right; left; reflexivity).
    cbn [app after_last]. cbn [existsb]. rewrite E, orb_true_r. exact IH.
Qed.

Lemma last_split c (t : str) : In c t -> exists a b, t = a ++ c :: b /\ ~ In c b.
Proof.
  induction t as [|x t IH]; [intros []|]. intros H.
  destruct (in_dec ascii_dec c t) as [I|I].
  - destruct (IH I) as (a & b & -> & N). exists (x :: a), b. split; [reflexivity|exact N].
  - destruct H as [->|H]; [|contradiction]. exists [], t. split; [reflexivity|exact I].
Qed.

Lemma after_last_upto c t : t = upto_last c t ++ after_last c t.
Proof.
  unfold upto_last. destruct (in_dec ascii_dec c t) as [I|I].
  - destruct (last_split c t I) as (a & b & -> & N).
    rewrite (after_last_split c a b N), app_length. cbn [List.length].
    replace (List.length a + S (List.length b) - List.length b)%nat
      with (List.length (a ++ [c])) by (rewrite app_length; cbn [List.length]; lia).
    replace (a ++ c :: b) with ((a ++ [c]) ++ b) at 1 by (rewrite <- app_assoc; reflexivity).
    f_equal.
    replace (a ++ c :: b) with ((a ++ [c]) ++ b) by (rewrite <- app_assoc; reflexivity).
    rewrite firstn_app, Nat.sub_diag, firstn_all. cbn [firstn]. rewrite app_nil_r. reflexivity.
  - rewrite (after_last_no c t I), Nat.sub_diag. reflexivity.
Qed.

Lemma after_last_no_In c t : ~ In c (after_last c t).
Proof.
  destruct (in_dec ascii_dec c t) as [I|I].
  - destruct (last_split c t I) as (a & b & -> & N). rewrite after_last_split; assumption.
  - rewrite after_last_no; assumption.
Qed.
