(** C75: wordings and the text written for a tree. *)
From Coq Require Import String.
From Verif Require Import Base Regex LexRules Lexer Grammar Antlr Ast Builder Parser ModelTests LexSpec LitSpec ValueSpec
  SpellSpec BuilderFacts ParseSpec ParseFacts TreeSpec PropsParse ReadSpec ReadStrat PropsRead WriteSpec PropsWrite SimFacts ComposeSpec PropsCompose SynSpec SynFacts PropsSyn.
Local Open Scope Z_scope.

Lemma words_erase C n : words C (erase n) = words C n.
Proof.
  induction n as [p l ch IH] using qnode_ind'.
  assert (Hm : map (words C) (map erase ch) = map (words C) ch) by (rewrite map_map; apply map_ext_in; rewrite Forall_forall in IH; exact IH).
  destruct p; cbn [erase words]; rewrite ?Hm; try reflexivity.
  all: destruct ch as [|[pc lc cc] [|d ch]]; try reflexivity. all: cbn [map erase] in *. all: destruct pc as [[qu|] ? ? ? ?| | | | | | | | | | |]; reflexivity.
Qed.
Lemma write_erase C n : write C (erase n) = write C n.
Proof. unfold write. rewrite words_erase. reflexivity. Qed.

(** The text written for the tree of a query read the documented way is a wording of the query ... *)
Theorem C75_written : forall V P q n, env_ok V -> norm_idempotent (e_penv V) (qp_cfg P) ->
  parse V P q = Ok n -> qstrat n = true ->
  same_query (e_penv V) (qp_cfg P) (tokens q) (tokens (write (qp_cfg P) n)).
Proof.
  intros V P q n HV Hi Hp Hs. destruct (C57_writable V P q n HV Hi Hp Hs) as [Hw Hd].
  destruct (proj2 (C57_roundtrip V P n HV Hw) Hd) as (n' & Hp' & He). apply (C75_same_tree V P q _ n n' HV Hp Hp'). congruence.
Qed.
(** ... and two such queries are wordings of each other exactly if the same text is written for them. *)
Theorem C75_decided : forall V P q q' n n', env_ok V -> norm_idempotent (e_penv V) (qp_cfg P) ->
  parse V P q = Ok n -> parse V P q' = Ok n' -> qstrat n = true -> qstrat n' = true ->
  (same_query (e_penv V) (qp_cfg P) (tokens q) (tokens q') <-> write (qp_cfg P) n = write (qp_cfg P) n').
Proof.
  intros V P q q' n n' HV Hi Hp Hp' Hs Hs'. rewrite <- (C75_same_tree V P q q' n n' HV Hp Hp'). split.
  - intros He. rewrite <- (write_erase _ n), He. apply write_erase.
  - intros He. destruct (C57_writable V P q n HV Hi Hp Hs) as [Hw _]. destruct (C57_writable V P q' n' HV Hi Hp' Hs') as [Hw' _].
    eapply C57_distinct; eassumption.
Qed.
Example C75_witness_written : exists n n1, parse some_env default_parser wording2 = Ok n /\ parse some_env default_parser wording1 = Ok n1 /\
  qstrat n = true /\ qstrat n1 = true /\ norm_idempotent (e_penv some_env) (qp_cfg default_parser) /\
  write (qp_cfg default_parser) n = u """a"" ? ""b"" / i | ( [ ] [ w = ""c"" & ( x : y != ""d"" ) ] { 2 , 2 } ) within sentence" /\
  write (qp_cfg default_parser) n1 = write (qp_cfg default_parser) n.
Proof.
  do 2 eexists. split; [vm_compute; reflexivity|]. split; [vm_compute; reflexivity|]. split; [vm_compute; reflexivity|]. split; [vm_compute; reflexivity|].
  split; [apply some_norm|]. split; vm_compute; reflexivity.
Qed.
Print Assumptions C75_written.
Print Assumptions C75_decided.
