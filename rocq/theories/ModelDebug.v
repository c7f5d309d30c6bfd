(** Model of utilities/debug.py and of [MPIPartition.print_sequential]. *)

From Verif Require Import Prelude ModelPartition P2P Rounds.

Section Debug.
  Context {V : Type}.        (* what is printed: the strings of the values *)

  (** A call of [print_sequential]: the communicator of the partition, the workers
      of the partition in rank order, and the value that each worker passes
      (debug.py:4, partition.py:180-183). *)
  Record print_call := mkprint { pr_comm : Z; pr_ranks : list Z; pr_val : Z -> V }.

  Notation action := (@action (list V) V).

  (** debug.py:7-8: the worker of rank 0 prints its own value.  The local data of a
      worker are the lines it has printed. *)
  Definition print_own (c : print_call) : round :=
    fun w => match rank_in (pr_ranks c) w with
             | Some 0 => [@ALocal (list V) V (fun out => out ++ [pr_val c w])]
             | _ => []
             end.

  (** debug.py:9-11 (rank 0) and 13-14 (the others): the exchange with the worker
      of rank [i].  Blocking [recv] and [send] are rounds with a single request; all
      messages have tag 0, and messages of different communicators never match, so
      the communicator takes the place of the tag.  [pickle] restores the value. *)
  Definition print_other (c : print_call) (i : Z) : round :=
    fun w => match rank_in (pr_ranks c) w with
             | None => []                                                     (* partition.py:182 *)
             | Some r =>
                 if r =? 0 then [@ARecv (list V) V (nth (Z.to_nat i) (pr_ranks c) 0) (pr_comm c) (fun m out => out ++ [m])]
                 else if r =? i then [@ASend (list V) V (nth 0 (pr_ranks c) 0) (pr_comm c) (fun _ => pr_val c w)]
                 else []
             end.

  (** debug.py:4-14, called by partition.py:180-183. *)
  Definition print_sequential (c : print_call) : list round :=
    print_own c :: map (print_other c) (map Z.of_nat (seq 1 (length (pr_ranks c) - 1))).

  (** A program that calls [print_sequential] several times
      (debug.py:4-14). *)
  Definition print_program (cs : list print_call) : list round := flat_map print_sequential cs.
End Debug.
Arguments print_call : clear implicits.
