(** * Vocabulary for histories *)
From stdpp Require Import gmap list numbers.
From Verif Require Import Lin.

(** The completed calls of a history, with their results (in the order in which
    they return). *)
Definition completed_step {op ret} (st : gmap nat op * list (op * ret)) (e : event op ret) :
    gmap nat op * list (op * ret) :=
  match e with
  | Inv t o => (<[t := o]> st.1, st.2)
  | Res t r => match st.1 !! t with
               | Some o => (delete t st.1, st.2 ++ [(o, r)])
               | None => st
               end
  end.
Definition calls {op ret} (h : list (event op ret)) : gmap nat op * list (op * ret) :=
  foldl completed_step (∅, []) h.
Definition completed {op ret} (h : list (event op ret)) : list (op * ret) :=
  (calls h).2.

(** The calls that have not returned. *)
Definition pending {op ret} (h : list (event op ret)) : list op :=
  (map_to_list (calls h).1).*2.

