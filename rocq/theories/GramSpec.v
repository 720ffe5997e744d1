(** Declarative reading of FCSParser.g4: derivation trees. *)
From Verif Require Import Base LexRules Lexer Grammar Antlr.

(** [derives e fs]: the list of trees [fs] is a derivation of the right-hand side [e]. *)
Inductive derives : ebnf -> list ptree -> Prop :=
| d_tk l t : In (t_type t) l -> derives (Tk l) [Leaf t]
| d_nt r ch : derives (body r) ch -> derives (NT r) [Node r ch]
| d_sq a b x y : derives a x -> derives b y -> derives (Sq a b) (x ++ y)
| d_al1 a b x : derives a x -> derives (Al a b) x
| d_al2 a b x : derives b x -> derives (Al a b) x
| d_op0 e : derives (Op e) []
| d_op1 e x : derives e x -> derives (Op e) x
| d_pl e x y : derives e x -> derives (St e) y -> derives (Pl e) (x ++ y)
| d_st0 e : derives (St e) []
| d_st1 e x y : derives e x -> derives (St e) y -> derives (St e) (x ++ y).

(** A derivation tree of a rule. *)
Definition parse_tree (r : rule) (t : ptree) : Prop := derives (NT r) [t].

(** The token sequence belongs to the language of FCSParser.g4. *)
Definition conforms (ts : list token) : Prop := exists t, parse_tree query t /\ leaves t = ts.

(** [K] can derive a token sequence with types [ts]: what prediction asks. *)
Inductive derives_all : list ebnf -> list ptree -> Prop :=
| da_nil : derives_all [] []
| da_cons e K x y : derives e x -> derives_all K y -> derives_all (e :: K) (x ++ y).
Definition viable (K : list ebnf) (ts : list ttype) : Prop :=
  exists fs, derives_all K fs /\ map t_type (flat_map leaves fs) = ts.

(** The derivation that least-viable-alternative prediction selects: in front of
    the pending stack [K] and the remaining tokens. *)
Inductive selects : ebnf -> list ebnf -> list token -> list ptree -> list token -> Prop :=
| s_tk l K t ts : In (t_type t) l -> selects (Tk l) K (t :: ts) [Leaf t] ts
| s_nt r K ts ch rest : selects (body r) K ts ch rest -> selects (NT r) K ts [Node r ch] rest
| s_sq a b K ts x r1 y r2 : selects a (b :: K) ts x r1 -> selects b K r1 y r2 ->
    selects (Sq a b) K ts (x ++ y) r2
| s_al1 a b K ts x r : viable (a :: K) (map t_type ts) -> selects a K ts x r -> selects (Al a b) K ts x r
| s_al2 a b K ts x r : ~ viable (a :: K) (map t_type ts) -> selects b K ts x r -> selects (Al a b) K ts x r
| s_op1 e K ts x r : viable (e :: K) (map t_type ts) -> selects e K ts x r -> selects (Op e) K ts x r
| s_op0 e K ts : ~ viable (e :: K) (map t_type ts) -> selects (Op e) K ts [] ts
| s_pl e K ts x r : selects (Sq e (St e)) K ts x r -> selects (Pl e) K ts x r
| s_st1 e K ts x r : viable (e :: St e :: K) (map t_type ts) -> selects (Sq e (St e)) K ts x r ->
    selects (St e) K ts x r
| s_st0 e K ts : ~ viable (e :: St e :: K) (map t_type ts) -> selects (St e) K ts [] ts.
