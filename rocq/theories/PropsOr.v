(** Property C18, continued: what can stand inside a conjunction; property C62, continued: a bound for every result. *)
From Coq Require Import String.
From Verif Require Import Base Regex LexRules Lexer Grammar Antlr Ast Builder Parser ModelTests LexSpec LexThms LitSpec
  GramSpec GramFacts ValueSpec ValueFacts SpellSpec BuilderFacts BuilderRules ParseSpec ParseFacts EvFacts SimFacts LevelFacts
  TreeSpec TreeFacts LevelSpec PropsParse PropsTree PropsPrec DepthSpec DepthFacts ReadSpec ReadQuery ReadStrat PropsRead PropsDepth OrTree DepthAll.

(** A disjunction gets into a conjunction without parentheses only behind a negation: its leftmost operand is one. *)
Theorem C18_or_in_and : forall V P q n m c, env_ok V -> parse V P q = Ok n -> subnode m n -> q_class m = CExpressionAnd ->
  In c (q_children m) -> q_class c = CExpressionOr -> starts_not c.
Proof. exact or_starts. Qed.

Lemma sub_with_locs b m n : subnode m n -> subnode (with_locs b m) (with_locs b n).
Proof.
  destruct b; [auto|]. cbn [with_locs]. induction 1 as [|p l ch c Hc _ IH]; [constructor|]. cbn [erase]. econstructor; [apply in_map; exact Hc|exact IH].
Qed.
(** Every result, also those that deviate from the textbook tree. *)
Theorem C62_all : forall V P q n, env_ok V -> parse V P q = Ok n ->
  (qheight n <= 3 * nesting (tokens q) + 5 * negations (tokens q) + 5)%nat.
Proof.
  intros V P q n HV Hp. destruct (parse_ev V P q n HV Hp) as (t & m & _ & _ & _ & _ & Hs & Hn). 
  assert (Hh : qheight n = qheight m) by (rewrite Hn; apply height_locs). rewrite Hh. apply (query_wide _ _ _ _ Hs).
  intros x c Hx Hcx Hc Hco. apply (starts_locs (enableSourceLocations (qp_cfg P))). eapply (C18_or_in_and V P q n (with_locs (enableSourceLocations (qp_cfg P)) x)).
  - exact HV.
  - exact Hp.
  - rewrite Hn. apply sub_with_locs. exact Hx.
  - rewrite with_locs_class. exact Hcx.
  - rewrite with_locs_children. apply in_map. exact Hc.
  - rewrite with_locs_class. exact Hco.
Qed.

Example C18_or_in_and_witness : exists n m c, tree_of "[w='u' | a='x' & !b='y' & e='v' | c='z' | d='w']" = Some n /\ subnode m n /\
  q_class m = CExpressionAnd /\ In c (q_children m) /\ q_class c = CExpressionOr /\ q_class (hd c (q_children c)) = CExpressionAnd.
Proof.
  destruct (tree_of "[w='u' | a='x' & !b='y' & e='v' | c='z' | d='w']") as [n|] eqn:H; vm_compute in H; [|discriminate]. injection H as <-.
  eexists _, _, _. split; [reflexivity|]. split; [eapply sub_child; [left; reflexivity|]; eapply sub_child; [right; left; reflexivity|]; apply sub_here|].
  split; [reflexivity|]. split; [right; left; reflexivity|]. split; reflexivity.
Qed.
(** Nine levels with two negations and one bracket. *)
Example C62_all_witness : let q := u "[a='x' | a='x' & !a='x' | !a='x' & a='x' & a='x' | a='x']" in
  exists n, parse some_env default_parser q = Ok n /\ qheight n = 10%nat /\ nesting (tokens q) = 1%nat /\ negations (tokens q) = 2%nat.
Proof.
  intros q. destruct (parse some_env default_parser q) as [n|] eqn:H; vm_compute in H; [|discriminate]. injection H as <-.
  eexists. split; [reflexivity|]. split; [|split]; vm_compute; reflexivity.
Qed.
