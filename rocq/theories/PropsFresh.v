(** C25: trees of several calls share no object. *)
From Coq Require Import String.
From Verif Require Import Base Regex LexRules Lexer Grammar Antlr Ast Builder Parser ModelTests
  SpellSpec BuilderFacts ParseSpec ParseFacts CoverSpec HeapFacts PropsParse PropsHeap.
Local Open Scope Z_scope.

(** Successful calls one after the other, each with its own configuration; in between any other objects may come into being
    ([extra], for instance by calls that fail). A call is given with the object it returns. *)
Inductive calls_made (V : env) : heap -> list (pcfg * pystr * nat) -> heap -> Prop :=
| cm_done h extra : calls_made V h [] (h ++ extra)
| cm_call h extra C q id h1 l h' : parser_parse_heap V C q (h ++ extra) = Ok (id, h1) -> calls_made V h1 l h' ->
    calls_made V h ((C, q, id) :: l) h'.

Lemma rep_known h : (forall id n ids, represents h id n ids -> forall i, In i ids -> nth_error h i <> None) /\
  (forall id cs ns ids, rep_children h id cs ns ids -> forall i, In i ids -> nth_error h i <> None).
Proof.
  apply represents_mutind.
  - intros id x p l ch ids Hx _ _ _ IH i [<-|Hi]; [congruence|auto].
  - intros id i [].
  - intros id c x cs n ns ids ids' _ _ _ IH _ IH' i Hi. apply in_app_or in Hi. destruct Hi; auto.
Qed.
Lemma rep_in_root h id n ids : represents h id n ids -> In id ids.
Proof. destruct 1. left. reflexivity. Qed.
Lemma rep_stable h h' : (forall id n ids, represents h id n ids -> (forall i, In i ids -> nth_error h' i = nth_error h i) -> represents h' id n ids) /\
  (forall id cs ns ids, rep_children h id cs ns ids -> (forall i, In i ids -> nth_error h' i = nth_error h i) -> rep_children h' id cs ns ids).
Proof.
  apply represents_mutind.
  - intros id x p l ch ids Hx Hp Hl _ IH He. eapply rep_node; [rewrite He; [exact Hx|left; reflexivity]|exact Hp|exact Hl|]. apply IH. intros i Hi. apply He. right. exact Hi.
  - intros id _. constructor.
  - intros id c x cs n ns ids ids' Hc Hpa Hr IH _ IH' He. eapply rc_cons; [rewrite He; [exact Hc|]|exact Hpa|apply IH|apply IH'].
    + apply in_or_app. left. eapply rep_in_root. exact Hr.
    + intros i Hi. apply He. apply in_or_app. left. exact Hi.
    + intros i Hi. apply He. apply in_or_app. right. exact Hi.
Qed.

(** Afterwards every returned object still is the tree of its query, untouched by the later calls, and no object belongs to two of the trees. *)
Theorem C25_fresh : forall V h l h', env_ok V -> calls_made V h l h' ->
  exists ts : list (qnode * list nat),
    Forall2 (fun c t => parse V (new_parser (fst (fst c))) (snd (fst c)) = Ok (fst t) /\ represents h' (snd c) (fst t) (snd t) /\
      exists x, nth_error h' (snd c) = Some x /\ h_parent x = None) l ts /\
    NoDup (concat (map snd ts)) /\
    (forall i, In i (concat (map snd ts)) -> (List.length h <= i)%nat) /\
    (forall i, (i < List.length h)%nat -> nth_error h' i = nth_error h i).
Proof.
  intros V h l h' HV H. induction H as [h extra|h extra C q id h1 l h' Hp Hl IH].
  - exists []. split; [constructor|]. split; [constructor|]. split; [intros i []|]. intros i Hi. apply nth_error_app1. exact Hi.
  - destruct IH as (ts & Ha & Hn & Hb & Hs). destruct (C25_parents V C q _ id h1 HV Hp) as (n & ids & x & Hq & Hr & Hx & Hpa & Hnd & Hnew & Hold).
    assert (Hlt : forall i, In i ids -> (i < List.length h1)%nat) by (intros i Hi; apply nth_error_Some; eapply (proj1 (rep_known h1)); eassumption).
    assert (Hge : (List.length h <= List.length h1)%nat).
    { pose proof (Hnew id (rep_in_root _ _ _ _ Hr)) as A. pose proof (Hlt id (rep_in_root _ _ _ _ Hr)) as B. rewrite app_length in A. clear -A B. lia. }
    exists ((n, ids) :: ts). split; [|split; [|split]].
    + constructor; [|exact Ha]. cbn [fst snd]. split; [exact Hq|]. split; [apply (proj1 (rep_stable h1 h')); [exact Hr|intros i Hi; apply Hs, Hlt, Hi]|].
      exists x. split; [|exact Hpa]. rewrite Hs; [exact Hx|]. apply Hlt. eapply rep_in_root. exact Hr.
    + cbn [map concat snd]. clear -Hnd Hn Hb Hlt. induction ids as [|i ids IH]; [exact Hn|]. inversion Hnd; subst. cbn [app]. constructor.
      * intros Hi. apply in_app_or in Hi. destruct Hi as [Hi|Hi]; [auto|]. specialize (Hb i Hi). specialize (Hlt i (or_introl eq_refl)). lia.
      * apply IH; [assumption|]. intros j Hj. apply Hlt. right. exact Hj.
    + cbn [map concat snd]. intros i Hi. apply in_app_or in Hi. destruct Hi as [Hi|Hi].
      * specialize (Hnew i Hi). rewrite app_length in Hnew. clear -Hnew. lia.
      * specialize (Hb i Hi). clear -Hb Hge. lia.
    + intros i Hi. rewrite Hs by (clear -Hi Hge; lia). rewrite Hold by (rewrite app_length; clear -Hi; lia). apply nth_error_app1. exact Hi.
Qed.
(** Two calls on the same text: equal trees, different objects. *)
Example C25_fresh_witness : exists h' id1 id2, calls_made some_env [] [(default_cfg true, u "'a'? 'b'", id1); (default_cfg true, u "'a'? 'b'", id2)] h' /\ id1 <> id2.
Proof.
  do 3 eexists. split.
  - eapply (cm_call some_env [] []); [vm_compute; reflexivity|]. eapply (cm_call some_env _ []); [vm_compute; reflexivity|]. apply (cm_done some_env _ []).
  - discriminate.
Qed.
Print Assumptions C25_fresh.
