(** Facts for C72: findings of trees that are moved or put together. *)
From Coq Require Import String.
From Verif Require Import Base Regex LexRules Lexer Grammar Antlr Ast Builder Parser Validation 
  SpellSpec BuilderFacts ParseSpec ParseFacts TreeSpec SitFacts AccessSpec ValidSpec PropsParse PropsTree PropsAccess PropsVisit ValidFacts PropsValid MessageFacts PropsValidate
  LayoutSpec ComposeSpec VComposeSpec.
Local Open Scope Z_scope.

Definition reloc_f (f g : Z -> Z) (x : finding) : finding := mkFinding (f_sev x) (f_msg x) (relocate f g (f_node x)).
Lemma preorder_reloc f g n : preorder (relocate f g n) = map (relocate f g) (preorder n).
Proof.
  induction n as [p l ch IH] using qnode_ind'. cbn [relocate preorder map]. f_equal. induction IH as [|c ch Hc _ IHl]; [reflexivity|].
  cbn [map flat_map]. rewrite map_app, Hc, IHl. reflexivity.
Qed.
Lemma class_reloc f g n : q_class (relocate f g n) = q_class n. Proof. destruct n. reflexivity. Qed.
Lemma checks_reloc repr_list C f g n : expr_checks repr_list C (relocate f g n) = map (reloc_f f g) (expr_checks repr_list C n).
Proof. destruct n as [p l ch]. destruct p; try reflexivity. cbn [expr_checks relocate]. rewrite map_map. reflexivity. Qed.
Lemma findings_reloc repr_list C f g n : findings (expr_checks repr_list C) (relocate f g n) = map (reloc_f f g) (findings (expr_checks repr_list C) n).
Proof.
  unfold findings. rewrite preorder_reloc. induction (preorder n) as [|m l IH]; [reflexivity|]. cbn [map filter]. rewrite class_reloc.
  destruct (class_eq_dec (q_class m) CExpression); [|exact IH]. cbn [flat_map]. rewrite map_app, checks_reloc, IH. reflexivity.
Qed.
Lemma of_sev_map s h fs : (forall x, f_sev (h x) = f_sev x) -> of_sev s (map h fs) = map h (of_sev s fs).
Proof.
  intros Hh. unfold of_sev. induction fs as [|x fs IH]; [reflexivity|]. cbn [map filter]. rewrite Hh, IH. destruct (f_sev x), s; reflexivity.
Qed.
Lemma of_sev_app s a b : of_sev s (a ++ b) = of_sev s a ++ of_sev s b.
Proof. apply filter_app. Qed.
Lemma of_sev_in s fs x : In x (of_sev s fs) -> In x fs.
Proof. intros H. apply filter_In in H. apply H. Qed.
Lemma move_reloc k n : move_locs k n = relocate (fun a => a + k) (fun b => b + k) n.
Proof.
  induction n as [p l ch IH] using qnode_ind'. cbn [relocate move_locs]. f_equal. induction IH as [|c ch Hc _ IHl]; [reflexivity|].
  cbn [map]. rewrite Hc, IHl. reflexivity.
Qed.

(** ** Put together *)
Lemma findings_items check n : flat_map (findings check) (items_of n) = findings check n.
Proof. destruct n as [p l ch]. destruct p; cbn [items_of flat_map]; try apply app_nil_r. symmetry. apply C37_compositional. discriminate. Qed.
Lemma findings_operands check n : flat_map (findings check) (operands_of n) = findings check n.
Proof.
  destruct n as [p l ch]. destruct p; cbn [operands_of flat_map]; try apply app_nil_r.
  all: try (rewrite app_nil_r, C37_compositional by discriminate; cbn [flat_map]; apply app_nil_r).
  symmetry. apply C37_compositional. discriminate.
Qed.
Lemma findings_content check n : findings check (content_of n) = findings check n.
Proof. destruct n as [p l ch]. destruct p; cbn [content_of]; try reflexivity; rewrite C37_compositional by discriminate; cbn [flat_map]; apply app_nil_r. Qed.

(** ** Details *)
Lemma slice_shift a s b x y : 0 <= x -> x <= y -> y <= zlen s -> slice (a ++ s ++ b) (x + zlen a) (y + zlen a) = slice s x y.
Proof.
  intros Hx Hy Hs. unfold slice, slice_index. assert (Ha : 0 <= zlen a) by (unfold zlen; lia). assert (Hb : 0 <= zlen b) by (unfold zlen; lia).
  assert (Hz : zlen (a ++ s ++ b) = zlen a + zlen s + zlen b) by (unfold zlen; rewrite !app_length; lia). rewrite Hz.
  destruct (Z.ltb_spec (x + zlen a) 0); [lia|]. destruct (Z.ltb_spec (y + zlen a) 0); [lia|]. destruct (Z.ltb_spec x 0); [lia|]. destruct (Z.ltb_spec y 0); [lia|].
  rewrite !Z.min_l by lia. replace (y + zlen a - (x + zlen a)) with (y - x) by lia.
  replace (Z.to_nat (x + zlen a)) with (List.length a + Z.to_nat x)%nat by (unfold zlen in *; lia).
  rewrite skipn_app, skipn_all2 by lia. replace (List.length a + Z.to_nat x - List.length a)%nat with (Z.to_nat x) by lia. cbn [app].
  rewrite skipn_app, firstn_app. assert (Hl : (List.length (skipn (Z.to_nat x) s) = List.length s - Z.to_nat x)%nat) by apply skipn_length. rewrite Hl.
  replace (Z.to_nat (y - x) - (List.length s - Z.to_nat x))%nat with 0%nat by (unfold zlen in *; lia). cbn [firstn]. apply app_nil_r.
Qed.
Section Details.
  Variable V : env. Hypothesis HV : env_ok V. Variable q : pystr. Variable n : qnode. Variable repr_list : list pystr -> pystr. Variable C : vcfg.
  Hypothesis Hp : parse V (new_parser (default_cfg true)) q = Ok n.
  Lemma finding_loc x : In x (findings (expr_checks repr_list C) n) ->
    exists l, q_loc (f_node x) = Some l /\ 0 <= l_start l < l_stop l /\ l_stop l <= zlen q.
  Proof.
    intros Hx. unfold findings in Hx. apply in_flat_map in Hx. destruct Hx as (m & Hm & Hx). apply filter_In in Hm. destruct Hm as [Hm _]. apply preorder_sub in Hm.
    assert (f_node x = m) as ->. { destruct m as [p l ch]. destruct p; cbn [expr_checks] in Hx; try contradiction. apply in_map_iff in Hx. destruct Hx as (y & <- & _). reflexivity. }
    exact (C21_locations V (new_parser (default_cfg true)) q n m HV Hp Hm).
  Qed.
  Lemma detail_moved a b x : In x (findings (expr_checks repr_list C) n) ->
    detail_of (Some (a ++ q ++ b)) (reloc_f (fun z => z + zlen a) (fun z => z + zlen a) x) = moved_detail (zlen a) (detail_of (Some q) x).
  Proof.
    intros Hx. destruct (finding_loc x Hx) as (l & Hl & H0 & H1). destruct x as [sv msg [p l' ch]]. cbn [f_node q_loc] in Hl. subst l'.
    unfold detail_of, moved_detail, reloc_f, text_of. cbn [f_msg f_sev f_node q_loc relocate option_map ed_message ed_type ed_position ed_fragment l_start l_stop]. f_equal.
    destruct q as [|c q'] eqn:Hq; [unfold zlen in H1; cbn in H1; lia|]. rewrite <- Hq in *. destruct (a ++ q ++ b) as [|d r] eqn:Hr; [rewrite Hq in Hr; destruct a; discriminate|]. rewrite <- Hr.
    rewrite slice_shift by lia. reflexivity.
  Qed.
  Lemma detail_relaid f g q' x : q' <> [] -> In x (findings (expr_checks repr_list C) n) ->
    detail_of (Some q') (reloc_f f g x) = relaid f g q' (detail_of (Some q) x).
  Proof.
    intros Hq' Hx. destruct (finding_loc x Hx) as (l & Hl & H0 & H1). destruct x as [sv msg [p l' ch]]. cbn [f_node q_loc] in Hl. subst l'.
    unfold detail_of, relaid, reloc_f, text_of. cbn [f_msg f_sev f_node q_loc relocate option_map ed_message ed_type ed_position ed_fragment l_start l_stop]. f_equal.
    destruct q' as [|d r] eqn:Hr; [congruence|]. reflexivity.
  Qed.
  Lemma details_moved a b s : map (detail_of (Some (a ++ q ++ b))) (of_sev s (findings (expr_checks repr_list C) (move_locs (zlen a) n))) =
    map (moved_detail (zlen a)) (map (detail_of (Some q)) (of_sev s (findings (expr_checks repr_list C) n))).
  Proof.
    rewrite move_reloc, findings_reloc, of_sev_map by reflexivity. rewrite !map_map. apply map_ext_in. intros x Hx. apply detail_moved. eapply of_sev_in. exact Hx.
  Qed.
  Lemma details_relaid f g q' s : q' <> [] -> map (detail_of (Some q')) (of_sev s (findings (expr_checks repr_list C) (relocate f g n))) =
    map (relaid f g q') (map (detail_of (Some q)) (of_sev s (findings (expr_checks repr_list C) n))).
  Proof.
    intros Hq'. rewrite findings_reloc, of_sev_map by reflexivity. rewrite !map_map. apply map_ext_in. intros x Hx. apply detail_relaid; [exact Hq'|]. eapply of_sev_in. exact Hx.
  Qed.
End Details.
Lemma move0 n : move_locs 0 n = n.
Proof.
  induction n as [p l ch IH] using qnode_ind'. cbn [move_locs]. f_equal; [destruct l as [[a b]|]; [|reflexivity]; cbn; unfold move_loc; cbn [l_start l_stop]; rewrite !Z.add_0_r; reflexivity|].
  induction IH as [|c ch Hc _ IHl]; [reflexivity|]. cbn [map]. rewrite Hc, IHl. reflexivity.
Qed.
Lemma moved0 l : map (moved_detail 0) l = l.
Proof.
  induction l as [|d l IH]; [reflexivity|]. cbn [map]. rewrite IH. f_equal. destruct d as [m t [[z|[a b]]|] f]; unfold moved_detail; cbn [ed_message ed_type ed_position ed_fragment l_start l_stop]; rewrite ?Z.add_0_r; reflexivity.
Qed.
Lemma details_first V q n repr_list C b s : env_ok V -> parse V (new_parser (default_cfg true)) q = Ok n ->
  map (detail_of (Some (q ++ b))) (of_sev s (findings (expr_checks repr_list C) n)) = map (detail_of (Some q)) (of_sev s (findings (expr_checks repr_list C) n)).
Proof.
  intros HV Hp. pose proof (details_moved V HV q n repr_list C Hp [] b s) as H. change (zlen []) with 0 in H. rewrite move0, moved0 in H. exact H.
Qed.

(** ** Verdicts and complaints of parsed queries *)
Definition fine (wae : bool) (fs : list finding) : bool := forallb (fun f => negb (fatal (plain_cfg false wae) f)) fs.
Lemma verdict_parsed V repr_list q n wae b : parse V (new_parser (default_cfg true)) q = Ok n ->
  (verdict V repr_list q wae b <-> b = fine wae (findings (expr_checks repr_list (plain_cfg false wae)) n)).
Proof.
  intros Hp. destruct (validate_ok V repr_list q (u "2.2") n wae eq_refl Hp) as (_ & b0 & Hb & Hi). unfold verdict. rewrite Hb.
  assert (Hf : b0 = fine wae (findings (expr_checks repr_list (plain_cfg false wae)) n)).
  { assert (Hx : b0 = true <-> fine wae (findings (expr_checks repr_list (plain_cfg false wae)) n) = true).
    { rewrite Hi. unfold fine, no_fatal. rewrite forallb_forall. split; intros H x Hx; specialize (H x Hx); destruct (fatal (plain_cfg false wae) x); cbn in *; congruence. }
    destruct b0, (fine wae (findings (expr_checks repr_list (plain_cfg false wae)) n)); try reflexivity; destruct Hx as [Hx1 Hx2]; [symmetry; apply Hx1; reflexivity|apply Hx2; reflexivity]. }
  rewrite <- Hf. split; [intros H; injection H as ->; reflexivity|intros ->; reflexivity].
Qed.
Lemma fine_app wae a b : fine wae (a ++ b) = fine wae a && fine wae b.
Proof. apply forallb_app. Qed.
Lemma fine_reloc wae f g fs : fine wae (map (reloc_f f g) fs) = fine wae fs.
Proof. unfold fine. induction fs as [|x fs IH]; [reflexivity|]. cbn [map forallb]. rewrite IH. reflexivity. Qed.
Lemma fine_move wae repr_list C k n : fine wae (findings (expr_checks repr_list C) (move_locs k n)) = fine wae (findings (expr_checks repr_list C) n).
Proof. rewrite move_reloc, findings_reloc. apply fine_reloc. Qed.
Section Lists.
  Variables (V : env) (repr_list : list pystr -> pystr) (q : pystr) (n : qnode).
  Hypothesis Hp : parse V (new_parser (default_cfg true)) q = Ok n.
  Definition fnd (m : qnode) := findings (expr_checks repr_list (plain_cfg false false)) m.
  Lemma complaints_errors l : complaints V repr_list q false l <-> l = map (detail_of (Some q)) (of_sev Error (fnd n)).
  Proof. unfold complaints. rewrite (C45_findings V repr_list q false n Hp), app_nil_r. fold (fnd n). split; [intros H; injection H as ->; reflexivity|intros ->; reflexivity]. Qed.
  Lemma complaints_all l : complaints V repr_list q true l <-> l = map (detail_of (Some q)) (of_sev Error (fnd n)) ++ map (detail_of (Some q)) (of_sev Warning (fnd n)).
  Proof.
    unfold complaints. rewrite (C45_findings V repr_list q true n Hp). rewrite (checks_modes repr_list false true false false). fold (fnd n).
    split; [intros H; injection H as ->; reflexivity|intros ->; reflexivity].
  Qed.
End Lists.
