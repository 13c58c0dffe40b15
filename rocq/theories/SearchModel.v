(** * SearchModel: _run_with_timeout, iterative_search_with_timeout and _optimal_circuit of src/mqt/qecc/ft_stateprep/state_prep.py *)
From Verif Require Export PyModel VerifModel.
Local Open Scope Z_scope.

(** The environment of the searches.  [w_fun k p] is what the searched function does with parameter p when called for the
    k-th time (k counts all calls of _run_with_timeout, so a solver may answer differently each time); [w_late k t] says whether the
    k-th child process is still alive after t seconds. *)
Record world (A : Type) := mkWorld { w_fun : nat -> Z -> py (option A); w_late : nat -> Z -> bool }.
Arguments mkWorld {A} _ _. Arguments w_fun {A} _ _ _. Arguments w_late {A} _ _ _.
Inductive run_result (A : Type) := Found (a : A) | NoSol | Timeout.
Arguments Found {A} _. Arguments NoSol {A}. Arguments Timeout {A}.
(** state_prep.py 510-528: an exception in the child leaves return_list empty, so return_list[0] raises IndexError in the parent
    (simplification: a call that is late does not raise, whatever it would have done later) *)
Definition run_with_timeout {A} (w : world A) (k : nat) (p timeout : Z) : py (run_result A) :=
  if w_late w k timeout then Ret Timeout else
  match w_fun w k p with
  | Ret (Some a) => Ret (Found a)
  | Ret None => Ret NoSol
  | Raise _ => Raise IndexError
  end.

(** state_prep.py 531-567 with the default factors 2; the result is the number of calls made so far with (res, curr_param), or
    (None, max_param).  [fuel] bounds the number of calls of each inner loop and of turns of the outer loop. *)
Fixpoint inner_search {A} (fuel : nat) (w : world A) (k : nat) (cur max_param timeout : Z) : outcome (nat * option (A * Z)) :=
  if max_param <? cur then Done (k, None) else
  match fuel with
  | O => Unfinished
  | S fuel' =>
      match run_with_timeout w k cur timeout with
      | Raise e => Failed e
      | Ret (Found a) => Done (S k, Some (a, cur))
      | Ret _ => if cur =? max_param then Done (S k, None) else inner_search fuel' w (S k) (Z.min (2 * cur) max_param) max_param timeout
      end
  end.
Fixpoint iterative_search_with_timeout {A} (fuel : nat) (w : world A) (k : nat) (min_param max_param timeout max_timeout : Z) : outcome (nat * (option A * Z)) :=
  if max_timeout <? timeout then Done (k, (None, max_param)) else
  match fuel with
  | O => Unfinished
  | S fuel' =>
      match inner_search fuel w k min_param max_param timeout with
      | Done (k', Some (a, p)) => Done (k', (Some a, p))
      | Done (k', None) => iterative_search_with_timeout fuel' w k' min_param max_param (2 * timeout) max_timeout
      | Failed e => Failed e
      | Unfinished => Unfinished
      end
  end.
(** the loops "try one less until nothing is found": state_prep.py 424-433 ([stop] = None: no lower limit) and 649-661, 667-680
    (while cur - 1 > 0) *)
Fixpoint descend {A} (fuel : nat) (w : world A) (k : nat) (low : option Z) (best : A) (cur max_timeout : Z) : outcome (nat * (A * Z)) :=
  if match low with Some l => cur - 1 <=? l | None => false end then Done (k, (best, cur)) else
  match fuel with
  | O => Unfinished
  | S fuel' =>
      match run_with_timeout w k (cur - 1) max_timeout with
      | Raise e => Failed e
      | Ret (Found a) => descend fuel' w (S k) low a (cur - 1) max_timeout
      | Ret _ => Done (S k, (best, cur))
      end
  end.
(** state_prep.py 381-436, after the checks were picked *)
Definition optimal_circuit {A} (fuel : nat) (w : world A) (min_param max_param min_timeout max_timeout : Z) : outcome (option A * Z) :=
  match iterative_search_with_timeout fuel w 0 min_param max_param min_timeout max_timeout with
  | Done (k, (None, p)) => Done (None, p)
  | Done (k, (Some a, p)) =>
      match descend fuel w k None a p max_timeout with
      | Done (_, (a, p)) => Done (Some a, p)
      | Failed e => Failed e
      | Unfinished => Unfinished
      end
  | Failed e => Failed e
  | Unfinished => Unfinished
  end.
