(** Communication buffers: MPIExpandableBuffer and MPIBufferManager
    (backends/mpi/buffer.py) and the allocation of the buffers of a Repartition
    (backends/mpi/repartition.py).

    Arrays are objects in a heap, so that aliasing is visible: a NumPy view is a
    shape and the array it looks into (always from the array's start), and
    [np.empty] gives arbitrary contents, supplied by the operation. *)

From Verif Require Import Prelude ModelSlicing ModelUtilities.

Section Buffers.
  Context {A K : Type} (keqb : K -> K -> bool).
  Variable dflt : A.

  (** A view: its shape and the array (position in the heap) it is a view of
      (buffer.py:80 and 133). *)
  Definition view : Type := list Z * nat.

  (** The attributes of an MPIExpandableBuffer, buffer.py:33-46. *)
  Record buffer := mkbuf {
    bdtype : K;
    bcap : Z;
    braw : nat;                      (* raw_buffer *)
    bviews : list (list Z * view)    (* the dict views *)
  }.

  (** All arrays, all buffer objects, and the manager's map from element type to
      the list of its buffers (buffer.py:155-157). *)
  Record world := mkw {
    wheap : list (list A);
    wbufs : list buffer;
    wmap : list (K * list nat)
  }.

  (** Before any buffer is requested, buffer.py:155-157. *)
  Definition world0 : world := mkw [] [] [].

  (** Access to the attributes of a buffer object, buffer.py:33-46. *)
  Definition get_buf (w : world) (b : nat) : option buffer := nth_error (wbufs w) b.
  (** Assignment to them, e.g. buffer.py:73-74 and 82. *)
  Definition set_buf (w : world) (b : nat) (x : buffer) : world :=
    mkw (wheap w) (upd b x (wbufs w)) (wmap w).

  (** [np.empty(n)] with contents [junk] (buffer.py:42 and 67). *)
  Definition np_empty (n : Z) (junk : Z -> A) : list A := map junk (zrange n).

  (** [np.copyto(new[:len(old)], old)] (buffer.py:70). *)
  Definition copy_into (new old : list A) : list A := old ++ skipn (length old) new.

  (** buffer.py:48-82 [expand] of buffer [b]. *)
  Definition expand (w : world) (b : nat) (n : Z) (junk : Z -> A) : world :=
    match get_buf w b with
    | None => w
    | Some x =>
        if n <=? bcap x then w
        else
          let old := nth (braw x) (wheap w) [] in
          let r := length (wheap w) in
          let x' := mkbuf (bdtype x) n r (map (fun e => (fst e, (fst e, r))) (bviews x)) in
          mkw (wheap w ++ [copy_into (np_empty n junk) old]) (upd b x' (wbufs w)) (wmap w)
    end.

  (** buffer.py:102-135 [get_view]; [allocate_view] (lines 84-100) is the same
      without the result.  [None]: an exception.  [np.prod(())] is the float 1.0,
      which cannot be used to slice; a negative extent is not modelled. *)
  Definition get_view (w : world) (b : nat) (sh : list Z) (junk : Z -> A) : world * option view :=
    match get_buf w b with
    | None => (w, None)
    | Some x =>
        match dict_get zlist_eqb (bviews x) sh with
        | Some v => (w, Some v)
        | None =>
            match sh with
            | [] => (w, None)
            | _ =>
                if existsb (fun n => n <? 0) sh then (w, None)
                else
                  let vol := zprod sh in
                  let w1 := if bcap x <? vol then expand w b vol junk else w in
                  match get_buf w1 b with
                  | None => (w1, None)
                  | Some x1 =>
                      let v := (sh, braw x1) in
                      (set_buf w1 b (mkbuf (bdtype x1) (bcap x1) (braw x1)
                                           (dict_set zlist_eqb (bviews x1) sh v)), Some v)
                  end
            end
        end
    end.

  (** Element [idx] of a view (row-major), and an assignment to it
      (the views of buffer.py:133). *)
  Definition read_view (w : world) (v : view) (idx : list Z) : A :=
    nth (Z.to_nat (cartesian_index_c (fst v) idx)) (nth (snd v) (wheap w) []) dflt.

  (** The assignment, to a view of buffer.py:133. *)
  Definition write_view (w : world) (v : view) (idx : list Z) (a : A) : world :=
    mkw (upd (snd v) (upd (Z.to_nat (cartesian_index_c (fst v) idx)) a
                          (nth (snd v) (wheap w) [])) (wheap w))
        (wbufs w) (wmap w).

  (** buffer.py:33-46: a new buffer object. *)
  Definition new_buffer (w : world) (dtype : K) (cap : Z) (junk : Z -> A) : world * nat :=
    (mkw (wheap w ++ [np_empty cap junk])
         (wbufs w ++ [mkbuf dtype cap (length (wheap w)) []]) (wmap w),
     length (wbufs w)).

  (** buffer.py:183-184. *)
  Fixpoint new_buffers (k : nat) (w : world) (dtype : K) (cap : Z) (junk : Z -> A) : world * list nat :=
    match k with
    | O => (w, [])
    | S k' => let (w1, b) := new_buffer w dtype cap junk in
              let (w2, l) := new_buffers k' w1 dtype cap junk in (w2, b :: l)
    end.

  (** buffer.py:159-187 [request_buffers]. *)
  Definition request_buffers (w : world) (n : nat) (dtype : K) (cap : Z) (junk : Z -> A)
    : world * list nat :=
    let have := match dict_get keqb (wmap w) dtype with Some l => l | None => [] end in
    let (w1, new) := new_buffers (n - length have) w dtype cap junk in
    let all := have ++ new in
    (mkw (wheap w1) (wbufs w1) (dict_set keqb (wmap w1) dtype all), firstn n all).

  (** * backends/mpi/repartition.py *)

  (** The partner of an overlap: a rank, the worker itself, or none
      (nn/repartition.py:234-241 and 267-274). *)
  Inductive partner := PRank (r : Z) | PSelf | PNone.

  (** An overlap (sl, sh, partner); the slice itself plays no role here
      (backends/mpi/repartition.py:25). *)
  Definition overlap : Type := bool * list Z * partner.    (* sl is not None; sh; partner *)

  (** repartition.py:25, 28, 39, 50. *)
  Definition needs_buffer (o : overlap) : bool :=
    match o with
    | (has, _, PSelf) => false
    | (has, _, _) => has
    end.

  (** Lines 36-44 and 47-55: hand out the buffers one after the other.  [None]:
      an exception of [allocate_view]. *)
  Fixpoint hand_out (w : world) (bufs : list nat) (ovs : list overlap) (junk : Z -> A)
    : option (world * list nat * list (option nat)) :=
    match ovs with
    | [] => Some (w, bufs, [])
    | o :: ovs' =>
        if needs_buffer o then
          match bufs with
          | [] => None
          | b :: bufs' =>
              match get_view w b (snd (fst o)) junk with
              | (w1, Some _) =>
                  match hand_out w1 bufs' ovs' junk with
                  | Some (w2, rest, l) => Some (w2, rest, Some b :: l)
                  | None => None
                  end
              | (_, None) => None
              end
          end
        else
          match hand_out w bufs ovs' junk with
          | Some (w2, rest, l) => Some (w2, rest, None :: l)
          | None => None
          end
    end.

  (** repartition.py:4-57. *)
  Definition allocate_repartition_buffers (w : world) (x_to_y y_to_x : list overlap)
      (dtype : K) (junk : Z -> A) : option (world * list (option nat) * list (option nat)) :=
    let count := length (filter needs_buffer x_to_y ++ filter needs_buffer y_to_x) in
    let (w1, bufs) := request_buffers w count dtype 0 junk in
    match hand_out w1 bufs x_to_y junk with
    | Some (w2, rest, l1) =>
        match hand_out w2 rest y_to_x junk with
        | Some (w3, _, l2) => Some (w3, l1, l2)
        | None => None
        end
    | None => None
    end.

  (** * Histories of operations *)

  (** Writes go through views handed out earlier, numbered by the position of
      the request in the history (calls of buffer.py:84-135 and 159-187). *)
  Inductive op :=
  | ORequest (n : nat) (dtype : K) (cap : Z) (junk : Z -> A)
  | OExpand (b : nat) (n : Z) (junk : Z -> A)
  | OGet (b : nat) (sh : list Z) (junk : Z -> A)
  | OWrite (k : nat) (idx : list Z) (a : A).

  (** Indices out of bounds raise an exception (negative ones, which count from
      the end, are not modelled) (numpy). *)
  Definition in_bounds (sh idx : list Z) : bool :=
    Nat.eqb (length sh) (length idx) &&
    forallb (fun p => (0 <=? snd p) && (snd p <? fst p)) (combine sh idx).

  (** The world and the views handed out so far, with the buffer they came
      from (the views of buffer.py:102-135). *)
  Definition hist : Type := world * list (nat * view).

  (** One call of buffer.py:84-135 or 159-187, or one assignment. *)
  Definition do_op (h : hist) (o : op) : hist :=
    let (w, issued) := h in
    match o with
    | ORequest n dtype cap junk => (fst (request_buffers w n dtype cap junk), issued)
    | OExpand b n junk => (expand w b n junk, issued)
    | OGet b sh junk =>
        match get_view w b sh junk with
        | (w1, Some v) => (w1, issued ++ [(b, v)])
        | (w1, None) => (w1, issued)
        end
    | OWrite k idx a =>
        match nth_error issued k with
        | Some (_, v) => if in_bounds (fst v) idx then (write_view w v idx a, issued) else h
        | None => h
        end
    end.

  (** A sequence of them, buffer.py:84-187. *)
  Definition run (h : hist) (ops : list op) : hist := fold_left do_op ops h.
End Buffers.
