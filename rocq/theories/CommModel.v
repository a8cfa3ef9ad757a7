(** * CommModel: communication.cpp, the transport of rows and matrices between the processes of a distributed run.

    All calls of MPI are made under the mutex of the [Communication] object of the process.  What is assumed of MPI: messages from one process to another with the same
    tag arrive complete and in the order in which they were posted; a count below zero, or a message longer than the buffer, ends the run (the default error handler);
    a buffer handed to MPI_Isend is read at some time between the call and the completion of the request.
    Not modelled: MPI_Init, MPI_Comm_rank and MPI_Comm_size; the loops that poll ([pause], [waitForCompletion]) only delay. *)
From Coq Require Import List ZArith Arith Bool.
From Verif Require Import Base Spec ArithModel SafeIntModel IntTypes OutputModel FileModel.
Import ListNotations.
Open Scope Z_scope.

(** The bytes of a message. *)
Definition message := list Z.
(** The object representation of an unsigned number in [k] bytes (little endian; sender and receiver agree). *)
Fixpoint le_bytes (k : nat) (z : Z) : message :=
  match k with
  | O => []
  | S k' => z mod 256 :: le_bytes k' (z / 256)
  end.
(** The unsigned number that [k] bytes represent. *)
Fixpoint le_value (bytes : message) : Z :=
  match bytes with
  | [] => 0
  | b :: bytes' => b + 256 * le_value bytes'
  end.
(** std::size_t (8 bytes) and int (4 bytes, two's complement). *)
Definition size_bytes (n : nat) : message := le_bytes 8 (Z.of_nat n).
(** Reading a std::size_t (communication.cpp 114-118). *)
Definition size_value (bytes : message) : nat := Z.to_nat (le_value bytes).
(** Writing an int. *)
Definition int_bytes (z : Z) : message := le_bytes 4 z.
(** Reading an int. *)
Definition int_value (bytes : message) : Z := wrap_signed 32 (le_value bytes).
(** The bytes of a row of ints (communication.cpp 95, 137). *)
Definition ints_bytes (row : vec) : message := flat_map int_bytes row.
(** A row of ints read from bytes (communication.cpp 123, 158). *)
Fixpoint ints_value (n : nat) (bytes : message) : vec :=
  match n with
  | O => []
  | S n' => int_value (firstn 4 bytes) :: ints_value n' (skipn 4 bytes)
  end.

(** [static_cast<int>(row_size * sizeof(int))] (communication.cpp 95, 123, 137, 158). *)
Definition byte_count (row_size : nat) : Z := wrap_signed 32 (4 * Z.of_nat row_size).

(** [send] (communication.cpp 168-175) from a container of [int]s: the address of the first element is taken, then [bytes] bytes are read. *)
Definition m_send_row (row : vec) (bytes : Z) : res message :=
  match row with
  | [] => UB
  | _ => if bytes <? 0 then Throw else if 4 * Z.of_nat (length row) <? bytes then UB else Ok (firstn (Z.to_nat bytes) (ints_bytes row))
  end.
(** [receive] (communication.cpp 177-188) into a buffer of [bytes] bytes. *)
Definition m_receive (bytes : Z) (x : message) : res message :=
  if bytes <? 0 then Throw else if Z.of_nat (length x) =? bytes then Ok x else Throw.

(** ** [toMaster] (83-105, 52-56): the messages posted, in order.  The flag says that the buffer is a variable of the inner block (lines 88-99: [size] and [row_size]). *)
Definition m_to_master_int (matrix : list vec) : res (list (bool * message)) :=
  do l <- back matrix;
  let row_size := length l in
  do rows <- mapM (fun row => m_send_row row (byte_count row_size)) matrix;
  Ok ((true, size_bytes (length matrix)) :: (true, size_bytes row_size) :: map (pair false) rows).
(** communication.cpp 52-56. *)
Definition m_to_master (t : int_type) (matrix : list vec) : res (list (bool * message)) :=
  do m <- mapM (m_cast t) matrix; m_to_master_int m.

(** ** [fromSlave] (107-129): where it is in its sequence of receives. *)
Inductive reader :=
| Idle                                                       (* polling, or not called *)
| WantSize                                                   (* line 116 *)
| WantRowSize (size : nat)                                   (* line 117 *)
| WantRow (row_size : nat) (more : nat) (rows : list vec)    (* line 124; [more] more rows after this one *)
| Failed                                                     (* an exception, or an error of MPI: the run is aborted *)
| Undefined.
(** One receive; the second component is the matrix that is returned. *)
Definition m_read (r : reader) (x : message) : reader * option (list vec) :=
  match r with
  | WantSize =>
      match m_receive 8 x with
      | Ok b => (WantRowSize (size_value b), None)
      | _ => (Failed, None)
      end
  | WantRowSize size =>
      match m_receive 8 x with
      | Ok b => match size with O => (Idle, Some []) | S n => (WantRow (size_value b) n [], None) end
      | _ => (Failed, None)
      end
  | WantRow row_size more rows =>
      if (row_size =? 0)%nat then (Undefined, None) (* &row.front() *)
      else match m_receive (byte_count row_size) x with
      | Ok b =>
          (* the row has [row_size] zeros before (line 122) *)
          let row := ints_value (length b / 4) b ++ repeat 0 (row_size - length b / 4) in
          match more with O => (Idle, Some (rows ++ [row])) | S n => (WantRow row_size n (rows ++ [row]), None) end
      | _ => (Failed, None)
      end
  | _ => (r, None)
  end.

(** ** A link between the threads of a slave and the request threads of the master (tag::matrix).

    A posted message: MPI has taken its bytes; its buffer is a variable of the inner block of [toMaster]; its buffer is part of the matrix (alive until [toMaster] has seen the
    request completed); its buffer was a variable of a block that has been left. *)
Inductive slot := Copied (x : message) | Local (x : message) | Heap (x : message) | Dangling.
(** communication.cpp 168-175: where the bytes of a posted message are. *)
Definition slot_for (eager : bool) (m : bool * message) : slot := if eager then Copied (snd m) else if fst m then Local (snd m) else Heap (snd m).
(** MPI takes the bytes of a message posted by MPI_Isend (communication.cpp 168-175). *)
Definition copied (s : slot) : slot := match s with Local x | Heap x => Copied x | _ => s end.
(** The end of the block communication.cpp 88-99. *)
Definition expired (s : slot) : slot := match s with Local _ => Dangling | _ => s end.
(** [sending]: the messages that the thread holding the mutex of the slave still posts, if one is in lines communication.cpp 87-99; [pipe]: posted and not received;
    [sent] and [got]: the matrices given to [toMaster] and returned by [fromSlave] so far, in the order of the critical sections. *)
Record link := Link { sending : option (list (bool * message)); pipe : list slot; reading : reader; sent : list (list vec); got : list (list vec) }.
(** No message posted, nothing received. *)
Definition link_start : link := Link None [] Idle [] [].
(** What [receive] finds in a slot. *)
Definition contents (s : slot) : option message := match s with Copied x | Local x | Heap x => Some x | Dangling => None end.
(** [fromSlave<Integer>], communication.cpp 58-62. *)
Definition after_read (t : int_type) (r : reader * option (list vec)) (got : list (list vec)) : list (list vec) :=
  match snd r with Some m => got ++ [m_cast_rows t m] (* fromSlave<Integer>, 58-62 *) | None => got end.

(** What happens in a step: a thread of the slave enters [toMaster] (communication.cpp 83-105), or something else. *)
Inductive event := Send (matrix : list vec) | Other.
(** With [eager], MPI takes the bytes at once; otherwise whenever it wants. *)
Inductive link_step (t : int_type) (eager : bool) : event -> link -> link -> Prop :=
| link_begin l matrix ms : sending l = None -> m_to_master t matrix = Ok ms ->
    link_step t eager (Send matrix) l (Link (Some ms) (pipe l) (reading l) (sent l ++ [matrix]) (got l))
| link_post l m ms : sending l = Some (m :: ms) -> link_step t eager Other l (Link (Some ms) (pipe l ++ [slot_for eager m]) (reading l) (sent l) (got l))
| link_leave l : sending l = Some [] -> link_step t eager Other l (Link None (map expired (pipe l)) (reading l) (sent l) (got l))
| link_transfer l a s b : pipe l = a ++ s :: b -> copied s <> s -> link_step t eager Other l (Link (sending l) (a ++ copied s :: b) (reading l) (sent l) (got l))
| link_probe l : reading l = Idle -> pipe l <> [] -> link_step t eager Other l (Link (sending l) (pipe l) WantSize (sent l) (got l))
| link_receive l s p x : reading l <> Idle -> reading l <> Failed -> reading l <> Undefined -> pipe l = s :: p -> contents s = Some x ->
    link_step t eager Other l (Link (sending l) p (fst (m_read (reading l) x)) (sent l) (after_read t (m_read (reading l) x) (got l)))
| link_dangling l s p : reading l <> Idle -> reading l <> Failed -> reading l <> Undefined -> pipe l = s :: p -> contents s = None ->
    link_step t eager Other l (Link (sending l) p Undefined (sent l) (got l)).
(** Sequences of steps. *)
Inductive link_run (t : int_type) (eager : bool) : list event -> link -> Prop :=
| link_nil : link_run t eager [] link_start
| link_cons es e l l' : link_run t eager es l -> link_step t eager e l l' -> link_run t eager (es ++ [e]) l'.

(** ** [toSlave] (131-142, 64-68) and [fromMaster] (144-164, 70-74): one message; the receiver asks for its length first. *)
Definition m_to_slave (t : int_type) (row : vec) : res message :=
  do r <- m_cast t row;
  let bytes := byte_count (length r) in
  if bytes <? 0 then Throw else Ok (firstn (Z.to_nat bytes) (ints_bytes r)).
(** communication.cpp 144-164, 70-74. *)
Definition m_from_master (t : int_type) (x : message) : res vec :=
  let row_size := (length x / 4)%nat in
  do b <- m_receive (byte_count row_size) x;
  Ok (map (m_from_int t) (ints_value row_size b)).
