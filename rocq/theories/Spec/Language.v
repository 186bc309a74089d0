(** The language of a regular expression *)
From Coq Require Import Ascii List.
From Verif.Model Require Import FormulaText Regex.
Import ListNotations.

Inductive lang : regex -> text -> Prop :=
| lang_empty : lang Empty []
| lang_char p c : p c = true -> lang (Chr p) [c]
| lang_cat r s a b : lang r a -> lang s b -> lang (Cat r s) (a ++ b)
| lang_left r s a : lang r a -> lang (Alt r s) a
| lang_right r s a : lang s a -> lang (Alt r s) a
| lang_stop r : lang (Star r) []
| lang_more r a b : lang r a -> lang (Star r) b -> lang (Star r) (a ++ b).
