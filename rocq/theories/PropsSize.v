(** Property C68: sizes of results and of parse trees. *)
From Coq Require Import String.
From Verif Require Import Base Regex LexRules Lexer Grammar Antlr Ast Builder Parser LexSpec LitSpec LexThms LexWs LexJoin
  GramSpec ValueSpec SpellSpec BuilderFacts BuilderRules ParseSpec ParseFacts EvFacts TreeSpec TreeFacts SimFacts DepthSpec DepthFacts ComposeSpec Compose ComposeParse HoleFacts SizeSpec SizeFacts PropsParse PropsRead PropsContexts PropsDepth PropsCompose.
Local Open Scope nat_scope.

Lemma qsize_erase n : qsize (erase n) = qsize n.
Proof. induction n as [p l ch IH] using qnode_ind'. cbn [erase qsize]. f_equal. rewrite map_map. induction IH as [|x xs Hx _ IH]; [reflexivity|]. cbn [map list_sum fold_right] in *. unfold list_sum in IH. rewrite Hx, IH. reflexivity. Qed.
Lemma qsize_locs b n : qsize (with_locs b n) = qsize n.
Proof. destruct b; [reflexivity|apply qsize_erase]. Qed.
Lemma qsize_move k n : qsize (move_locs k n) = qsize n.
Proof. induction n as [p l ch IH] using qnode_ind'. cbn [move_locs qsize]. f_equal. rewrite map_map. induction IH as [|x xs Hx _ IH]; [reflexivity|]. cbn [map list_sum fold_right] in *. unfold list_sum in IH. rewrite Hx, IH. reflexivity. Qed.
Lemma count_tokens q : List.length (tokens q) = token_count q + 1.
Proof. unfold tokens, token_count. rewrite app_length. reflexivity. Qed.

(** C68.  A result has at most two nodes per token and one more, and at least one node for eight tokens; and at most
    two nodes per character and one more. *)
Theorem C68_result : forall V P q n, env_ok V -> parse V P q = Ok n ->
  qsize n <= 2 * token_count q + 1 /\ token_count q + 1 <= 8 * qsize n /\ qsize n <= 2 * List.length q + 1.
Proof.
  intros V P q n HV Hp. destruct (parse_ev V P q n HV Hp) as (t & m & _ & _ & _ & _ & Hs & ->). rewrite qsize_locs.
  pose proof (query_size _ _ _ _ Hs) as H. rewrite count_tokens in H. pose proof (tokens_length q) as L. rewrite count_tokens in L. lia.
Qed.
(** A parse tree has at most five nodes per token and four more; all its tokens are nodes of it. *)
Theorem C68_tree : forall q t, antlr_parse q = Ok t -> token_count q + 1 <= psize t <= 5 * token_count q + 4.
Proof.
  intros q t H. apply PropsContexts.antlr_tree in H. destruct H as [Hp Hl]. pose proof (tree_size _ Hp) as A. pose proof (tree_leaves_size t) as B. rewrite Hl, count_tokens in *. lia.
Qed.

(** Both bounds for results are met, whatever the size: literals side by side, ... *)
Fixpoint literals (k : nat) : pystr := match k with 0 => [] | S k => u "'a'" ++ literals k end.
Theorem C68_most : forall k, 2 <= k -> exists n, parse some_env default_parser (literals k) = Ok n /\ token_count (literals k) = k /\ qsize n = 2 * k + 1.
Proof.
  assert (T : forall k, token_count (literals k) = k).
  { assert (N : forall k, token_count (literals k) = List.length (nt (literals k))) by (intros k; unfold token_count, nt; rewrite map_length; reflexivity).
    intros k. rewrite N. induction k as [|k IH]; [reflexivity|]. cbn [literals]. destruct (HoleFacts.literal_join (u "'a'") (literals k)) as [-> _]; [exists 39%N, [EPlain 97%N]; repeat split; [right; reflexivity|repeat constructor; cbn; lia]|]. cbn [List.length]. rewrite map_length, IH. reflexivity. }
  assert (H : forall k, exists n, parse some_env default_parser (literals (S (S k))) = Ok n /\ q_class n = CQuerySequence /\ qsize n = 2 * S (S k) + 1).
  { induction k as [|k (n & IH & Hc & Hs)]; [eexists; split; [vm_compute; reflexivity|split; reflexivity]|].
    change (literals (S (S (S k)))) with (u "'a'" ++ literals (S (S k))).
    assert (exists n1, parse some_env default_parser (u "'a'") = Ok n1 /\ q_class n1 = CQuerySegment /\ qsize n1 = 2) as (n1 & H1 & C1 & S1) by (eexists; split; [vm_compute; reflexivity|split; reflexivity]).
    rewrite (C58_sequence some_env default_parser _ _ _ _ some_env_ok H1 IH ltac:(rewrite C1; cbn; intuition discriminate) ltac:(rewrite Hc; cbn; intuition discriminate)).
    eexists. split; [reflexivity|]. split; [reflexivity|]. cbn [qsize]. rewrite map_app, list_sum_app.
    assert (I1 : items_of n1 = [n1]) by (destruct n1 as [[] ? ?]; try discriminate C1; reflexivity). rewrite I1. cbn [map list_sum fold_right]. rewrite S1.
    assert (I2 : forall m, q_class m = CQuerySequence -> S (list_sum (map qsize (items_of m))) = qsize m) by (intros [[] ? ?] Hm; try discriminate Hm; reflexivity).
    assert (Cm : q_class (move_locs (zlen (u "'a'")) n) = CQuerySequence) by (destruct n; exact Hc).
    pose proof (I2 _ Cm) as X. rewrite qsize_move in X. unfold list_sum in *. lia. }
  intros [|[|k]] Hk; [lia|lia|]. destruct (H k) as (n & A & _ & B). exists n. split; [exact A|]. split; [apply T|exact B].
Qed.
(** ... and the other bounds are met by examples. *)
Example C68_least : let q := u "[q:w='a'/i | q:w='a'/i | q:w='a'/i | q:w='a'/i]" in exists n, parse some_env default_parser q = Ok n /\ token_count q = 33 /\ qsize n = 6.
Proof. eexists. split; [vm_compute; reflexivity|]. split; vm_compute; reflexivity. Qed.
Example C68_tree_most : exists t, antlr_parse (literals 3) = Ok t /\ psize t = 5 * token_count (literals 3) + 4.
Proof. eexists. split; [vm_compute; reflexivity|vm_compute; reflexivity]. Qed.
Print Assumptions C68_result. Print Assumptions C68_tree. Print Assumptions C68_most.
