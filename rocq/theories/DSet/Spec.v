(* Being connected by a list of pairs. *)
From Coq Require Import List.
Import ListNotations.

Inductive linked {A} (E : list (A * A)) : A -> A -> Prop :=
| l_refl x : linked E x x
| l_edge x y : In (x, y) E -> linked E x y
| l_sym x y : linked E x y -> linked E y x
| l_trans x y z : linked E x y -> linked E y z -> linked E x z.

Lemma linked_incl {A} (E F : list (A * A)) x y : (forall e, In e E -> In e F) -> linked E x y -> linked F x y.
Proof. intros I H. induction H; eauto using l_refl, l_edge, l_sym, l_trans. Qed.

(* a link through one more pair *)
Lemma linked_cons {A} (E : list (A * A)) u v x y :
  linked ((u, v) :: E) x y <->
  linked E x y \/ (linked E x u /\ linked E v y) \/ (linked E x v /\ linked E u y).
Proof.
  split.
  - intros H. induction H as [x|x y H|x y H IH|x y z H1 IH1 H2 IH2].
    + left; constructor.
    + destruct H as [H|H]; [injection H as <- <-; right; left; split; constructor|left; apply l_edge; auto].
    + destruct IH as [?|[[? ?]|[? ?]]]; [left|right; right|right; left]; try split; apply l_sym; auto.
    + destruct IH1 as [?|[[? ?]|[? ?]]]; destruct IH2 as [?|[[? ?]|[? ?]]].
      * left. eapply l_trans; eauto.
      * right; left; split; auto; eapply l_trans; eauto.
      * right; right; split; auto; eapply l_trans; eauto.
      * right; left; split; auto; eapply l_trans; eauto.
      * right; left; auto.
      * left. eapply l_trans; eauto.
      * right; right; split; auto; eapply l_trans; eauto.
      * left. eapply l_trans; eauto.
      * right; right; auto.
  - assert (M : forall a b, linked E a b -> linked ((u, v) :: E) a b)
      by (intros a b HM; apply (linked_incl E); auto; intros; right; auto).
    assert (X : linked ((u, v) :: E) u v) by (apply l_edge; left; auto).
    intros [H|[[H1 H2]|[H1 H2]]]; auto.
    + eapply l_trans; [apply M, H1|]. eapply l_trans; [apply X|]. auto.
    + eapply l_trans; [apply M, H1|]. eapply l_trans; [apply l_sym, X|]. auto.
Qed.
Lemma linked_nil {A} (x y : A) : linked [] x y -> x = y.
Proof. induction 1 as [|a b H| |]; auto; [destruct H|congruence]. Qed.
