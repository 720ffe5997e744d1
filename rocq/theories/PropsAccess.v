(** C28-C34: accessors of query nodes. *)
From Coq Require Import String.
From Verif Require ValueFacts.
From Verif Require Import Base Regex LexRules Lexer Grammar Antlr Ast Builder Parser ModelTests
  SpellSpec ParseSpec ParseFacts TreeSpec AccessSpec PropsParse PropsTree.
Local Open Scope Z_scope.

Lemma str_eqb_eq : forall a b, str_eqb a b = true <-> a = b.
Proof.
  induction a as [|x a IH]; intros [|y b]; cbn; try (split; congruence). rewrite Bool.andb_true_iff, N.eqb_eq, IH.
  split; [intros [-> ->]; reflexivity|intros H; injection H; auto].
Qed.

(** ** C28 *)
Definition has_child_at (n : qnode) (idx : Z) (c : qnode) : Prop :=
  exists before after, q_children n = before ++ c :: after /\ Z.of_nat (List.length before) = idx.
Lemma nth_split_iff {A} (l : list A) (k : nat) (x : A) : nth_error l k = Some x <-> exists b a, l = b ++ x :: a /\ List.length b = k.
Proof.
  split; [apply nth_error_split|]. intros (b & a & -> & <-). rewrite nth_error_app2 by lia. rewrite Nat.sub_diag. reflexivity.
Qed.
Lemma has_child_at_nth n idx c : has_child_at n idx c <-> 0 <= idx /\ nth_error (q_children n) (Z.to_nat idx) = Some c.
Proof.
  unfold has_child_at. rewrite nth_split_iff. split.
  - intros (b & a & H & <-). split; [lia|]. exists b, a. split; [exact H|lia].
  - intros (H0 & b & a & H & Hl). exists b, a. split; [exact H|lia].
Qed.
(** All outcomes of [get_child(idx)]. *)
Theorem C28_exact : forall n idx,
  match get_child n idx None with
  | Ok (Some c) => has_child_at n idx c
  | Ok None => idx < 0 \/ child_count n < idx \/ child_count n = 0
  | Raise e => e = IndexError /\ idx = child_count n /\ 0 < child_count n
  end.
Proof.
  intros n idx. unfold get_child, child_count. destruct (q_children n) as [|a l] eqn:Hc; [cbn; auto|].
  set (N := Z.of_nat (List.length (a :: l))). destruct (Z.ltb_spec idx 0); [cbn; auto|]. destruct (Z.ltb_spec N idx); [cbn; auto|]. cbn [orb].
  destruct (nth_error (a :: l) (Z.to_nat idx)) as [c|] eqn:Hn.
  - apply has_child_at_nth. rewrite Hc. auto.
  - apply nth_error_None in Hn. split; [reflexivity|]. unfold N in *. cbn [List.length] in *. lia.
Qed.
(** In bounds, the child; beyond or before, [None]; the documented [None] is missing for
    the index equal to the (non-zero) number of children. *)
Theorem C28_in_bounds : forall n idx, 0 <= idx < child_count n ->
  exists c, get_child n idx None = Ok (Some c) /\ has_child_at n idx c.
Proof.
  intros n idx H. pose proof (C28_exact n idx) as E. destruct (get_child n idx None) as [[c|]|e]; [eauto|lia|lia].
Qed.
Theorem C28_out_of_bounds : forall n idx, idx < 0 \/ child_count n < idx \/ child_count n = 0 -> get_child n idx None = Ok None.
Proof.
  intros n idx H. pose proof (C28_exact n idx) as E. destruct (get_child n idx None) as [[c|]|e]; [|reflexivity|].
  - destruct E as (b & a & Hc & Hl). unfold child_count in *. rewrite Hc, app_length in H. cbn in H. lia.
  - destruct E as (_ & E1 & E2). lia.
Qed.
Theorem C28_refuted : exists n idx, (forall c, ~ has_child_at n idx c) /\ get_child n idx None = Raise IndexError.
Proof.
  exists (QN PNot None [QN PWildcard None []]), 1. split; [|reflexivity].
  intros c (b & a & H & Hl). destruct b as [|x [|y b]]; cbn in *; try discriminate; lia.
Qed.
Theorem C28_count : forall n, 0 < child_count n -> get_child n (child_count n) None = Raise IndexError.
Proof.
  intros n H. pose proof (C28_exact n (child_count n)) as E. destruct (get_child n (child_count n) None) as [[c|]|e]; [|lia|destruct E as (-> & _); reflexivity].
  destruct E as (b & a & Hc & Hl). unfold child_count in *. rewrite Hc, app_length in Hl. cbn in Hl. lia.
Qed.

(** ** C29 *)
Lemma isinstance_dec c n : isinstance c n = if class_eq_dec (q_class n) c then true else false.
Proof. reflexivity. Qed.
Lemma nth_of_class_filter c : forall l pos idx, pos <= idx ->
  nth_of_class c pos idx l = nth_error (filter (fun m => if class_eq_dec (q_class m) c then true else false) l) (Z.to_nat (idx - pos)).
Proof.
  induction l as [|x l IH]; intros pos idx H; [cbn; destruct (Z.to_nat _); reflexivity|]. cbn [nth_of_class filter]. rewrite isinstance_dec.
  destruct (class_eq_dec (q_class x) c).
  - destruct (Z.eqb_spec pos idx) as [->|Hne]; [rewrite Z.sub_diag; reflexivity|].
    rewrite IH by lia. replace (Z.to_nat (idx - pos)) with (S (Z.to_nat (idx - (pos + 1)))) by lia. reflexivity.
  - apply IH. exact H.
Qed.
Lemma filter_le {A} (f : A -> bool) l : (List.length (filter f l) <= List.length l)%nat.
Proof. induction l as [|x l IH]; cbn; [lia|]. destruct (f x); cbn; lia. Qed.
Theorem C29_class : forall n idx c, get_child n idx (Some c) =
  Ok (if idx <? 0 then None else nth_error (children_of_class c n) (Z.to_nat idx)).
Proof.
  intros n idx c. unfold get_child, children_of_class, child_count. destruct (q_children n) as [|a l] eqn:Hc.
  - cbn. destruct (idx <? 0), (Z.to_nat idx); reflexivity.
  - rewrite <- Hc. destruct (Z.ltb_spec idx 0); [reflexivity|]. destruct (Z.ltb_spec (Z.of_nat (List.length (q_children n))) idx); cbn [orb].
    + symmetry. f_equal. apply nth_error_None. etransitivity; [apply filter_le|]. lia.
    + rewrite nth_of_class_filter by lia. rewrite Z.sub_0_r. reflexivity.
Qed.
Theorem C29_first : forall n,
  get_first_child n None = Ok (hd_error (q_children n)) /\
  forall c, get_first_child n (Some c) = Ok (hd_error (children_of_class c n)).
Proof.
  intros n. unfold get_first_child. split.
  - unfold get_child. destruct (q_children n) as [|a l] eqn:Hc; [reflexivity|]. unfold child_count. rewrite Hc. reflexivity.
  - intros c. rewrite C29_class. cbn. destruct (children_of_class c n); reflexivity.
Qed.
Example C29_witness :
  let n := QN PSequence None [QN (PSegment 1 1) None []; QN (PQGroup 0 2) None []; QN (PSegment 0 1) None []] in
  get_child n 1 (Some CQuerySegment) = Ok (Some (QN (PSegment 0 1) None [])) /\
  get_child n 2 (Some CQuerySegment) = Ok None /\ get_first_child n (Some CQueryGroup) = Ok (Some (QN (PQGroup 0 2) None [])).
Proof. repeat split. Qed.

(** ** C30 *)
Theorem C30_last : forall n, get_last_child n None = Ok (hd_error (rev (q_children n))).
Proof.
  intros n. unfold get_last_child. destruct (Z.eq_dec (child_count n) 0) as [H0|Hne].
  - rewrite C28_out_of_bounds by lia. unfold child_count in H0. destruct (q_children n); [reflexivity|cbn in H0; lia].
  - assert (0 <= child_count n) by (unfold child_count; lia). destruct (C28_in_bounds n (child_count n - 1)) as (c & -> & b & a & Hc & Hl); [lia|].
    unfold child_count in Hl. rewrite Hc, app_length in Hl. cbn in Hl. destruct a as [|x a]; [|cbn in Hl; lia].
    rewrite Hc, rev_app_distr. reflexivity.
Qed.
(** With a class: the last child, but only if all children are of that class. *)
Theorem C30_exact : forall n c,
  ((forall m, In m (q_children n) -> q_class m = c) -> get_last_child n (Some c) = Ok (hd_error (rev (q_children n)))) /\
  ((exists m, In m (q_children n) /\ q_class m <> c) -> get_last_child n (Some c) = Ok None).
Proof.
  intros n c. unfold get_last_child. rewrite C29_class. unfold children_of_class, child_count. split; intros H.
  - replace (filter _ _) with (q_children n).
    2:{ clear -H. induction (q_children n) as [|x l IH]; [reflexivity|]. cbn. destruct (class_eq_dec (q_class x) c) as [|Hn]; [|exfalso; apply Hn, H; left; reflexivity].
        rewrite <- IH; [reflexivity|]. intros m Hm. apply H. right. exact Hm. }
    clear H. induction (q_children n) as [|x l _] using rev_ind; [reflexivity|]. rewrite app_length, rev_app_distr. cbn [List.length rev app hd_error].
    destruct (Z.ltb_spec (Z.of_nat (List.length l + 1) - 1) 0); [lia|]. f_equal. rewrite nth_error_app2 by lia.
    replace (Z.to_nat _ - List.length l)%nat with 0%nat by lia. reflexivity.
  - destruct (_ <? 0); [reflexivity|]. f_equal. apply nth_error_None. destruct H as (m & Hm & Hc). apply in_split in Hm. destruct Hm as (b & a & ->).
    rewrite filter_app, !app_length. cbn [filter List.length]. destruct (class_eq_dec (q_class m) c); [contradiction|].
    pose proof (filter_le (fun m => if class_eq_dec (q_class m) c then true else false) b).
    pose proof (filter_le (fun m => if class_eq_dec (q_class m) c then true else false) a). lia.
Qed.
Theorem C30_refuted : exists n c m, hd_error (rev (children_of_class c n)) = Some m /\ get_last_child n (Some c) = Ok None.
Proof.
  exists (QN PSequence None [QN (PSegment 1 1) None []; QN (PQGroup 1 1) None []]), CQueryGroup, (QN (PQGroup 1 1) None []). split; reflexivity.
Qed.

(** ** C31 *)
Theorem C31_exact : forall query,
  (forall within, get_within (mk_with_within query (Some within)) = Ok (Some within)) /\
  get_within (mk_with_within query None) = Raise IndexError.
Proof. intros query. split; reflexivity. Qed.
Theorem C31_parsed : forall V P q n, env_ok V -> parse V P q = Ok n -> q_class n = CQueryWithWithin ->
  exists query sc lw, get_within n = Ok (Some (QN (PSimpleWithin sc) lw [])) /\ first_of_children n = Ok query /\
    q_children n = [query; QN (PSimpleWithin sc) lw []].
Proof.
  intros V P q n HV Hp Hc. destruct (C14_children V P q n HV Hp Hc) as (pre & w & k & sc & query & lw & _ & _ & Hch & _).
  exists query, sc, lw. unfold get_within, get_child, first_of_children, child_count. rewrite Hch. auto.
Qed.
(** On parsed trees the other accessors of children always find one, too. *)
Theorem C31_first : forall V P q n m, env_ok V -> parse V P q = Ok n -> subnode m n ->
  In (q_class m) [CQuerySegment; CQueryGroup; CQueryWithWithin] -> exists c, first_of_children m = Ok c /\ hd_error (q_children m) = Some c.
Proof.
  intros V P q n m HV Hp Hm Hc. pose proof (C15_shape V P q n m HV Hp Hm) as Hs. unfold first_of_children.
  destruct m as [p l [|c ch]]; [|eexists; split; reflexivity]. exfalso. unfold q_class in Hc. cbn [q_payload q_children map] in *. clear -Hs Hc.
  destruct p; cbn [class_of shape_ok] in *; try (destruct Hs as (c & Hc' & _); discriminate).
  all: cbn in Hc; repeat (destruct Hc as [Hc|Hc]; [discriminate|]); destruct Hc.
Qed.

(** ** C32 *)
Theorem C32_predicates : forall qu i op r fl q' i' op' r' fl', mk_expression qu i op r fl = PExpr q' i' op' r' fl' ->
  (forall s, has_layer_identifier i' (Some s) = Ok true <-> s = i) /\
  (forall s, has_layer_identifier i' (Some s) = Ok false <-> s <> i) /\
  (forall o, has_operator op' (Some o) = Ok true <-> o = op) /\
  (forall o, has_operator op' (Some o) = Ok false <-> o <> op) /\
  (forall f, has_regex_flag fl' (Some f) = Ok true <-> exists F, fl = Some F /\ flag_in f F = true) /\
  (forall f, has_regex_flag fl' (Some f) = Ok false <-> ~ exists F, fl = Some F /\ flag_in f F = true) /\
  (exists m, has_layer_identifier i' None = Raise (TypeErrorExn m)) /\
  (exists m, has_operator op' None = Raise (TypeErrorExn m)) /\
  (exists m, has_regex_flag fl' None = Raise (TypeErrorExn m)).
Proof.
  intros qu i op r fl q' i' op' r' fl' H. unfold mk_expression in H. injection H as _ <- <- _ <-.
  assert (Hs : forall s, str_eqb i s = true <-> s = i) by (intros s; rewrite str_eqb_eq; split; auto).
  assert (Ho : forall o, operator_eqb op o = true <-> o = op) by (intros o; destruct op, o; cbn; intuition discriminate).
  assert (Hf : forall f, has_regex_flag (match fl with Some s => if flags_nonempty s then Some s else None | None => None end) (Some f)
     = Ok (match fl with Some F => flag_in f F | None => false end)).
  { intros f. destruct fl as [F|]; [|reflexivity]. cbn. destruct (flags_nonempty F) eqn:Hn; [cbn; rewrite Hn; reflexivity|].
    cbn. destruct F as [a b c d]. unfold flags_nonempty in Hn. cbn in Hn. destruct a, b, c, d; try discriminate. destruct f; reflexivity. }
  assert (Hok : forall b c : bool, Ok b = Ok c <-> b = c) by (intros b c; split; congruence).
  repeat apply conj; try (eexists; reflexivity); intros x; cbn [has_layer_identifier has_operator]; rewrite ?Hf, Hok.
  - apply Hs.
  - rewrite <- Hs. destruct (str_eqb i x); intuition congruence.
  - apply Ho.
  - rewrite <- Ho. destruct (operator_eqb op x); intuition congruence.
  - destruct fl as [F|]; [|split; [discriminate|intros (F & H & _); discriminate]]. split; [intros H; eauto|].
    intros (F' & H & HF). injection H as <-. exact HF.
  - destruct fl as [F|]; [|split; [intros _ (F & H & _); discriminate|reflexivity]]. split.
    + intros H (F' & H' & HF). injection H' as <-. congruence.
    + intros H. destruct (flag_in x F) eqn:HF; [|reflexivity]. exfalso. apply H. eauto.
Qed.

(** Sets of flags as sets: of a set with the members [l] just these are found. *)
Theorem C32_flags : forall l f, has_regex_flag (Some (fold_right flag_add no_flags l)) (Some f) = Ok true <-> In f l.
Proof.
  intros l f. assert (H : flag_in f (fold_right flag_add no_flags l) = true <-> In f l).
  { induction l as [|g l IH]; cbn [fold_right In]; [destruct f; cbn; split; [discriminate|contradiction|discriminate|contradiction|discriminate|contradiction|discriminate|contradiction]|].
    rewrite ValueFacts.flag_in_add, IH. split; intros [H|H]; auto. }
  rewrite <- H. clear H. generalize (fold_right flag_add no_flags l). intros S. cbn [has_regex_flag]. destruct S as [[] [] [] []], f; cbn; split; congruence.
Qed.
(** ** C33 *)
(** The emptiness predicates are inverted; has_layer_qualifier is never true. *)
Theorem C33_exact : forall qu i op r fl q' i' op' r' fl', mk_expression qu i op r fl = PExpr q' i' op' r' fl' ->
  (is_layer_qualifier_empty q' = true <-> q' <> None) /\
  (is_regex_flags_empty fl' = true <-> fl' <> None) /\
  (forall s, has_layer_qualifier q' (Some s) = Ok false) /\
  (exists m, has_layer_qualifier q' None = Raise (TypeErrorExn m)).
Proof.
  intros qu i op r fl q' i' op' r' fl' H. unfold mk_expression in H. injection H as <- _ _ _ <-.
  split; [|split; [|split; [|eexists; reflexivity]]].
  - destruct qu as [[|a s]|]; [|destruct (isspace (a :: s))|]; unfold is_layer_qualifier_empty; cbn [truthy]; split; congruence.
  - destruct fl as [F|]; [|cbn; split; congruence]. cbn. destruct (flags_nonempty F) eqn:Hn; cbn; rewrite ?Hn; split; congruence.
  - intros s. destruct qu as [[|a q]|]; try reflexivity. destruct (isspace (a :: q)); reflexivity.
Qed.
Theorem C33_refuted :
  let x := mk_expression (Some (u "q")) (u "i") EQUALS (u "v") (Some (mkFlags true false false false)) in
  exists q i o r f, x = PExpr q i o r f /\ q = Some (u "q") /\ is_layer_qualifier_empty q = true /\
    is_regex_flags_empty f = true /\ has_layer_qualifier q (Some (u "q")) = Ok false.
Proof. cbv zeta. repeat eexists. Qed.

(** ** C34 *)
Theorem C34_exact : forall n, ntype_of (q_payload n) =
  if class_eq_dec (q_class n) CQueryGroup then QUERY_SEGMENT else own_type (q_class n).
Proof. intros [p l ch]. destruct p; reflexivity. Qed.
Theorem C34_has_node_type : forall n t, q_class n <> CQueryGroup ->
  has_node_type n (Some t) = Ok true <-> t = own_type (q_class n).
Proof.
  intros n t Hc. unfold has_node_type. rewrite C34_exact. destruct (class_eq_dec (q_class n) CQueryGroup); [contradiction|].
  destruct (node_type_eq_dec _ t); split; congruence.
Qed.
(** For every argument: [None] raises TypeError, the node type is accepted, every other one is refused. *)
Theorem C34_total : forall n t, exists r, has_node_type n t = r /\
  (t = None -> exists m, r = Raise (TypeErrorExn m)) /\ (forall t', t = Some t' -> exists b, r = Ok b /\ (b = true <-> t' = ntype_of (q_payload n))).
Proof.
  intros n t. eexists. split; [reflexivity|]. split.
  - intros ->. eexists. reflexivity.
  - intros t' ->. cbn [has_node_type]. eexists. split; [reflexivity|]. destruct (node_type_eq_dec (ntype_of (q_payload n)) t'); split; congruence.
Qed.
Theorem C34_distinct : forall c c', own_type c = own_type c' -> c = c'.
Proof. intros [] []; cbn; congruence. Qed.
Theorem C34_refuted : forall n, has_node_type n (Some QUERY_GROUP) = Ok false.
Proof. intros [p l ch]. destruct p; reflexivity. Qed.

(** ** Concrete cases *)
Example C28_witness : let n := QN PSequence None [QN (PSegment 1 1) None []; QN (PQGroup 0 2) None []] in
  child_count n = 2 /\ get_child n 1 None = Ok (Some (QN (PQGroup 0 2) None [])) /\ get_child n (-1) None = Ok None /\ get_child n 3 None = Ok None /\ get_child n 2 None = Raise IndexError.
Proof. vm_compute. repeat split. Qed.
Example C30_witness : let n := QN PSequence None [QN (PSegment 1 1) None []; QN (PSegment 0 2) None []] in
  get_last_child n None = Ok (Some (QN (PSegment 0 2) None [])) /\ get_last_child n (Some CQuerySegment) = Ok (Some (QN (PSegment 0 2) None [])) /\ get_last_child n (Some CQueryGroup) = Ok None.
Proof. vm_compute. repeat split. Qed.
Example C31_witness : exists n query, parse some_env (new_parser (default_cfg false)) (u "'a' 'b' within p") = Ok n /\ q_class n = CQueryWithWithin /\
  get_within n = Ok (Some (QN (PSimpleWithin PARAGRAPH) None [])) /\ first_of_children n = Ok query /\ q_class query = CQuerySequence.
Proof. eexists _, _. split; [vm_compute; reflexivity|]. split; [reflexivity|]. split; [vm_compute; reflexivity|]. split; [vm_compute; reflexivity|]. reflexivity. Qed.
Example C32_witness : exists q i o r f, mk_expression (Some (u "q")) (u "i") NOT_EQUALS (u "v") (Some (mkFlags true false false true)) = PExpr q i o r f /\
  has_layer_identifier i (Some (u "i")) = Ok true /\ has_operator o (Some EQUALS) = Ok false /\ has_regex_flag f (Some IGNORE_DIACRITICS) = Ok true /\ has_regex_flag f (Some CASE_SENSITIVE) = Ok false.
Proof. eexists _, _, _, _, _. split; [reflexivity|]. vm_compute. repeat split. Qed.
Example C34_witness : has_node_type (QN (PSegment 1 1) None []) (Some QUERY_SEGMENT) = Ok true /\ has_node_type (QN PWildcard None []) (Some EXPRESSION) = Ok false /\
  has_node_type (QN (PQGroup 1 1) None []) (Some QUERY_SEGMENT) = Ok true.
Proof. vm_compute. repeat split. Qed.
