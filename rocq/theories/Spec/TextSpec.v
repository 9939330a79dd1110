(** Vocabulary for the textual descriptions of objects. Models no code. *)
From Coq Require Import List String.
Import ListNotations.
Open Scope string_scope.
Open Scope list_scope.

(** s1, s2, ..., sn *)
Fixpoint commas (l : list string) : string :=
  match l with [] => ""%string | [s] => s | s :: r => (s ++ ", " ++ commas r)%string end.
(** "key=value" *)
Definition shown (kv : string * string) : string := (fst kv ++ "=" ++ snd kv)%string.
(** Name(s1, s2, ..., sn) *)
Definition call_text (name : string) (l : list string) : string := (name ++ "(" ++ commas l ++ ")")%string.
