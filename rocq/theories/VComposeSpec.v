(** Specification for C72: what [validate] says about queries that are laid out anew or put together. *)
From Coq Require Import String.
From Verif Require Import Base Ast Parser Validation.
Local Open Scope Z_scope.

(** [validate(q, warnings_as_errors=wae)] returns [b]. *)
Definition verdict (V : env) (repr_list : list pystr -> pystr) (q : pystr) (wae b : bool) : Prop :=
  fcsql_validate V repr_list q (u "2.2") false wae = Ok (VBool b).
(** [validate(q, return_errors=True, warnings_as_errors=wae)] returns [l]. *)
Definition complaints (V : env) (repr_list : list pystr -> pystr) (q : pystr) (wae : bool) (l : list error_detail) : Prop :=
  fcsql_validate V repr_list q (u "2.2") true wae = Ok (VList l).
(** The same complaint (message, type, fragment), [k] characters further on. *)
Definition moved_detail (k : Z) (d : error_detail) : error_detail :=
  mkErr (ed_message d) (ed_type d)
    (match ed_position d with
     | Some (PosLoc l) => Some (PosLoc (mkLoc (l_start l + k) (l_stop l + k)))
     | p => p
     end) (ed_fragment d).
(** The same complaint (message, type) about the text from [f a] to [g b] of [q] instead of the one from [a] to [b]. *)
Definition relaid (f g : Z -> Z) (q : pystr) (d : error_detail) : error_detail :=
  match ed_position d with
  | Some (PosLoc l) =>
      mkErr (ed_message d) (ed_type d) (Some (PosLoc (mkLoc (f (l_start l)) (g (l_stop l)))))
        (Some (slice q (f (l_start l)) (g (l_stop l))))
  | _ => d
  end.
