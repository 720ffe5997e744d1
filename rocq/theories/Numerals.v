(** Numerals: how numbers are read and written. *)
From Coq Require Import String.
From Coq Require DecimalString HexadecimalString DecimalN HexadecimalN DecimalFacts HexadecimalFacts DecimalPos HexadecimalPos.
From Verif Require Import Base LexRules Lexer Ast Builder LexThms ValueFacts ComplaintSpec WriteFacts.
From Coq Require Import ZifyBool ZifyN.
Local Open Scope Z_scope.

(** ** Uniqueness *)
Lemma digit_of_inj c c' d : digit_of c = Some d -> digit_of c' = Some d -> c = c'.
Proof.
  unfold digit_of. intros H H'.
  destruct ((48 <=? c)%N && (c <=? 57)%N) eqn:A; [|destruct ((65 <=? c)%N && (c <=? 70)%N) eqn:B; [|discriminate]];
  (destruct ((48 <=? c')%N && (c' <=? 57)%N) eqn:A'; [|destruct ((65 <=? c')%N && (c' <=? 70)%N) eqn:B'; [|discriminate]]);
  injection H as H; injection H' as H'; lia.
Qed.
Lemma numeral_det b w n n' : numeral b w n -> numeral b w n' -> n = n'.
Proof.
  intros H. revert n'. induction H as [|w n c d H IH Hd Hlt]; intros n' H'.
  - inversion H' as [|w' m c' d' Hw Hc Hl Heq]; [reflexivity|]. destruct w'; discriminate.
  - inversion H' as [Heq|w' m c' d' Hw Hc Hl Heq]; [destruct w; discriminate|].
    apply app_inj_tail in Heq. destruct Heq as [-> ->]. rewrite (IH _ Hw). congruence.
Qed.
Definition no_zero (w : pystr) : Prop := forall w', w <> 48%N :: w'.
Lemma no_zero_init w c : w <> [] -> no_zero (w ++ [c]) -> no_zero w.
Proof. intros Hn H w' ->. apply (H (w' ++ [c])). reflexivity. Qed.
Lemma numeral_zero b w : (0 < b)%N -> numeral b w 0 -> no_zero w -> w = [].
Proof.
  intros Hb H. assert (Hg : forall n, numeral b w n -> n = 0%N -> no_zero w -> w = []); [|apply (Hg 0%N H eq_refl)]. clear H.
  intros n H. induction H as [|w n c d H IH Hd Hlt]; intros Hn Hz; [reflexivity|]. exfalso.
  assert (n = 0%N) by nia. assert (d = 0%N) by nia. subst d.
  assert (c = 48%N) by (eapply digit_of_inj; [exact Hd|reflexivity]). subst c.
  destruct w as [|x w]; [apply (Hz []); reflexivity|].
  assert (x :: w = []) by (apply IH; [assumption|]; eapply no_zero_init; [discriminate|exact Hz]). discriminate.
Qed.
Lemma numeral_unique b w w' n : (0 < b)%N -> numeral b w n -> numeral b w' n -> no_zero w -> no_zero w' -> w = w'.
Proof.
  intros Hb H. revert w'. induction H as [|w n c d H IH Hd Hlt]; intros w' H' Hz Hz'.
  - symmetry. eapply numeral_zero; eassumption.
  - inversion H' as [Heq Hv|w2 m c' d' Hw Hc Hl Heq Hv].
    + subst w'. eapply numeral_zero; [exact Hb| |exact Hz]. rewrite Hv. constructor; assumption.
    + subst w'. assert (m = n /\ d' = d) as [-> ->].
      { assert (E1 : (d' + b * m = d + b * n)%N) by nia.
        assert ((d' + b * m) / b = (d + b * n) / b)%N as E2 by (rewrite E1; reflexivity).
        rewrite !(N.mul_comm b), !N.div_add, !N.div_small in E2 by lia. nia. }
      rewrite (digit_of_inj c c' d Hd Hc) in *. f_equal.
      destruct w as [|x w]; destruct w2 as [|x2 w2]; [reflexivity|..].
      * symmetry. inversion H as [|w3 ? ? ? ? ? ? E3]; [subst|destruct w3; discriminate]. eapply numeral_zero; [exact Hb|exact Hw|]. eapply no_zero_init; [discriminate|exact Hz'].
      * inversion Hw as [|w3 ? ? ? ? ? ? E3]; [subst|destruct w3; discriminate]. eapply numeral_zero; [exact Hb|exact H|]. eapply no_zero_init; [discriminate|exact Hz].
      * apply IH; [exact Hw| |]; eapply no_zero_init; try eassumption; discriminate.
Qed.
Lemma zero_numeral b : (0 < b)%N -> numeral b (u "0") 0.
Proof. intros Hb. exact (nm_digit b [] 0 48 0 (nm_nil b) eq_refl Hb). Qed.
Lemma written_unique b n w w' : (0 < b)%N -> written b n w -> written b n w' -> w = w'.
Proof.
  intros Hb (H1 & H2 & H3) (H1' & H2' & H3').
  assert (Hc : forall w, numeral b w n -> w <> [] -> (forall v, w = 48%N :: v -> v = []) -> (n = 0%N /\ w = u "0") \/ (n <> 0%N /\ no_zero w)).
  { intros v A B D. destruct v as [|x v]; [congruence|]. destruct (N.eq_dec x 48) as [->|Hx].
    - left. rewrite (D v eq_refl) in *. split; [|reflexivity]. eapply numeral_det; [exact A|]. apply zero_numeral; exact Hb.
    - assert (Hz : no_zero (x :: v)) by (intros v' E; injection E as -> _; contradiction). right. split; [|exact Hz].
      intros ->. pose proof (numeral_zero b _ Hb A Hz). discriminate. }
  destruct (Hc w H1 H2 H3) as [[A ->]|[A B]]; destruct (Hc w' H1' H2' H3') as [[A' ->]|[A' B']]; try congruence.
  eapply numeral_unique; eassumption.
Qed.

(** ** Reading *)
Lemma numeral_fold w : forall v n, Forall is_digit_char w -> 0 <= n -> numeral 10 v (Z.to_N n) ->
  numeral 10 (v ++ w) (Z.to_N (fold_left (fun a c => a * 10 + digit_val c) w n)).
Proof.
  induction w as [|c w IH]; intros v n Hw Hn H; [rewrite app_nil_r; exact H|]. inversion Hw as [|? ? Hc Hw']; subst. cbn [fold_left].
  replace (v ++ c :: w) with ((v ++ [c]) ++ w) by (rewrite <- app_assoc; reflexivity).
  unfold is_digit_char in Hc. unfold digit_val at 2. apply IH; [exact Hw'|lia|].
  replace (Z.to_N (n * 10 + (Z.of_N c - 48))) with (Z.to_N n * 10 + (c - 48))%N by lia.
  constructor; [exact H| |lia]. unfold digit_of. replace ((48 <=? c)%N && (c <=? 57)%N) with true by lia. reflexivity.
Qed.
Lemma numeral_dec w : Forall is_digit_char w -> numeral 10 w (Z.to_N (dec_value w)).
Proof. intros H. apply (numeral_fold w [] 0 H); [lia|constructor]. Qed.

(** ** Writing *)
Lemma written_dec z : 0 <= z -> written 10 (Z.to_N z) (dec z).
Proof.
  intros Hz. destruct (dec_digits z Hz) as [Hn Hd]. split; [rewrite <- (dec_value_dec z Hz) at 2; apply numeral_dec; exact Hd|].
  split; [exact Hn|]. intros w' Hw.
  destruct (dec_uint z Hz) as [He Hnil]. rewrite He in Hw.
  assert (Hu : Decimal.unorm (z_uint z) = z_uint z).
  { unfold z_uint. rewrite <- (DecimalN.Unsigned.to_of (N.to_uint (Z.to_N z))), DecimalN.Unsigned.of_to. reflexivity. }
  destruct (z_uint z) as [|d|d|d|d|d|d|d|d|d|d] eqn:Ed; cbn in Hw; try discriminate Hw. injection Hw as <-.
  unfold Decimal.unorm in Hu. cbn [Decimal.nzhead] in Hu.
  assert (Hnz : forall d d', Decimal.nzhead d <> Decimal.D0 d') by (clear; induction d; intros d'; cbn; try discriminate; apply IHd).
  destruct (Decimal.nzhead d) eqn:En; try discriminate Hu; [injection Hu as <-; reflexivity|exfalso; eapply Hnz; exact En].
Qed.

Definition up (c : N) : N := if (97 <=? c)%N && (c <=? 102)%N then (c - 32)%N else c.
Lemma hex_acc d : forall p w, numeral 16 w (Npos p) ->
  numeral 16 (w ++ map up (u (HexadecimalString.NilEmpty.string_of_uint d))) (Npos (Pos.of_hex_uint_acc d p)).
Proof.
  induction d; intros p w H; cbn [HexadecimalString.NilEmpty.string_of_uint u map Pos.of_hex_uint_acc]; [rewrite app_nil_r; exact H|..];
  match goal with |- numeral _ (w ++ ?c :: ?r) _ => replace (w ++ c :: r) with ((w ++ [c]) ++ r) by (rewrite <- app_assoc; reflexivity) end;
  apply IHd;
  match goal with |- numeral _ (_ ++ [?c]) ?v =>
    let c' := eval vm_compute in c in let d := eval vm_compute in (match digit_of c' with Some d => d | None => 0%N end) in
    replace v with (Npos p * 16 + d)%N by lia; constructor; [exact H|reflexivity|lia] end.
Qed.
Lemma hex_first d : forall w, numeral 16 w 0 ->
  numeral 16 (w ++ map up (u (HexadecimalString.NilEmpty.string_of_uint d))) (Pos.of_hex_uint d).
Proof.
  induction d; intros w H; cbn [HexadecimalString.NilEmpty.string_of_uint u map Pos.of_hex_uint]; [rewrite app_nil_r; exact H|..];
  match goal with |- numeral _ (w ++ ?c :: ?r) _ => replace (w ++ c :: r) with ((w ++ [c]) ++ r) by (rewrite <- app_assoc; reflexivity) end;
  [apply IHd|apply hex_acc..];
  match goal with |- numeral _ (_ ++ [?c]) ?v =>
    let c' := eval vm_compute in c in let d := eval vm_compute in (match digit_of c' with Some d => d | None => 0%N end) in
    replace v with (0 * 16 + d)%N by reflexivity; constructor; [exact H|reflexivity|lia] end.
Qed.
Lemma written_hex n : written 16 n (hex_upper n).
Proof.
  unfold hex_upper. fold up. pose proof (HexadecimalN.Unsigned.of_to n) as Hof.
  assert (Hu : Hexadecimal.unorm (N.to_hex_uint n) = N.to_hex_uint n).
  { rewrite <- (HexadecimalN.Unsigned.to_of (N.to_hex_uint n)), Hof. reflexivity. }
  assert (Hnz : forall d d', Hexadecimal.nzhead d <> Hexadecimal.D0 d') by (clear; induction d; intros d'; cbn; try discriminate; apply IHd).
  assert (Hs : HexadecimalString.NilZero.string_of_uint (N.to_hex_uint n) = HexadecimalString.NilEmpty.string_of_uint (N.to_hex_uint n)).
  { destruct (N.to_hex_uint n) eqn:Ed; try reflexivity. discriminate Hu. }
  rewrite Hs. split; [|split].
  - pose proof (hex_first (N.to_hex_uint n) [] (nm_nil 16)) as Hx. change (Pos.of_hex_uint (N.to_hex_uint n)) with (N.of_hex_uint (N.to_hex_uint n)) in Hx. rewrite Hof in Hx. exact Hx.
  - destruct (N.to_hex_uint n); [discriminate Hu|discriminate..].
  - intros w' Hw. destruct (N.to_hex_uint n) as [|d|d|d|d|d|d|d|d|d|d|d|d|d|d|d|d] eqn:Ed; cbn in Hw; try discriminate Hw. injection Hw as <-.
    unfold Hexadecimal.unorm in Hu. cbn [Hexadecimal.nzhead] in Hu.
    destruct (Hexadecimal.nzhead d) eqn:En; try discriminate Hu; [injection Hu as <-; reflexivity|exfalso; eapply Hnz; exact En].
Qed.
