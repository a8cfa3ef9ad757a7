(** * StreamModel: input streams of the C++ standard library (as implemented by libstdc++, "C" locale).

    A stream is the text still to be read and two of its state bits ([badbit] is never set here).  The position in the file is represented by the text
    from there on.  Everything is formatted with the default flags (decimal, skipws). *)
From Coq Require Import List ZArith Arith Bool Ascii String.
From Verif Require Import Base SafeIntModel.
Import ListNotations.
Open Scope Z_scope.

(** [std::string]. *)
Definition text := list ascii.
(** A string literal. *)
Definition lit (s : string) : text := list_ascii_of_string s.
(** [operator==] of strings. *)
Definition text_eqb (a b : text) : bool := if list_eq_dec ascii_dec a b then true else false.

(** The characters not yet read and the state bits of a std::istream. *)
Record stream := Stream { rest : text; eofbit : bool; failbit : bool }.
(** A stream that has just been opened. *)
Definition opened (t : text) : stream := Stream t false false.

(** [bool(stream)]: not failed; [good()]: no bit set; [clear()]; [setstate]. *)
Definition ok (s : stream) : bool := negb (failbit s).
(** [good()]. *)
Definition good (s : stream) : bool := negb (eofbit s) && negb (failbit s).
(** [clear()]. *)
Definition clear (s : stream) : stream := Stream (rest s) false false.
(** [setstate(failbit)]. *)
Definition set_fail (s : stream) : stream := Stream (rest s) (eofbit s) true.
(** [setstate(eofbit)]. *)
Definition set_eof (s : stream) : stream := Stream (rest s) true (failbit s).

(** [peek()]: the next character, [None] for EOF.  (The sentry of a stream that is not good sets failbit.) *)
Definition peek (s : stream) : option ascii * stream :=
  if good s then match rest s with [] => (None, set_eof s) | c :: _ => (Some c, s) end else (None, set_fail s).
(** [get()]. *)
Definition get_char (s : stream) : option ascii * stream :=
  if good s then match rest s with [] => (None, set_fail (set_eof s)) | c :: r => (Some c, Stream r false false) end else (None, set_fail s).
(** [tellg()]: [None] is -1. *)
Definition tellg (s : stream) : option text * stream := if good s then (Some (rest s), s) else (None, set_fail s).
(** [seekg(pos)]: clears eofbit; fails on position -1. *)
Definition seekg (pos : option text) (s : stream) : stream :=
  let s := Stream (rest s) false (failbit s) in
  if good s then match pos with Some t => Stream t false false | None => set_fail s end else set_fail s.

(** The character that ends a line. *)
Definition newline : ascii := "010"%char.
(** [std::getline(stream, string)]; the string is unchanged if the stream is not good. *)
Fixpoint split_line (t : text) : text * option text :=
  match t with
  | [] => ([], None)
  | c :: t' => if ascii_dec c newline then ([], Some t') else let '(l, r) := split_line t' in (c :: l, r)
  end.
(** [std::getline(stream, string)]. *)
Definition getline (old : text) (s : stream) : text * stream :=
  if good s then
    match split_line (rest s) with
    | (l, Some r) => (l, Stream r false false)
    | ([], None) => ([], Stream [] true true)
    | (l, None) => (l, Stream [] true false)
    end
  else (old, set_fail s).

(** [std::isspace]. *)
Definition is_space (c : ascii) : bool :=
  let n := nat_of_ascii c in (n =? 32)%nat || (n =? 9)%nat || (n =? 10)%nat || (n =? 11)%nat || (n =? 12)%nat || (n =? 13)%nat.
(** The digits of num_get. *)
Definition is_digit (c : ascii) : bool := let n := nat_of_ascii c in (48 <=? n)%nat && (n <=? 57)%nat.
(** The value of a digit. *)
Definition digit_value (c : ascii) : Z := Z.of_nat (nat_of_ascii c) - 48.
(** The rest of a text after a prefix of certain characters. *)
Fixpoint drop_while (p : ascii -> bool) (t : text) : text :=
  match t with [] => [] | c :: t' => if p c then drop_while p t' else t end.
(** The prefix of a text of certain characters. *)
Fixpoint take_while (p : ascii -> bool) (t : text) : text :=
  match t with [] => [] | c :: t' => if p c then c :: take_while p t' else [] end.

(** The sentry of formatted input: skips white space; [None] if that fails. *)
Definition formatted (s : stream) : option text :=
  if good s then match drop_while is_space (rest s) with [] => None | t => Some t end else None.
(** Formatted input whose sentry failed. *)
Definition formatted_failure (s : stream) : stream := if good s then Stream [] true true else set_fail s.

(** The value of a string of digits. *)
Definition digits_value (ds : text) : Z := fold_left (fun acc c => 10 * acc + digit_value c) ds 0.
(** [num_get] for a decimal integer: sign, digits; stops at the first other character. *)
Definition scan_integer (t : text) : bool * text * text :=
  match t with
  | c :: t' => if ascii_dec c "-" then (true, take_while is_digit t', drop_while is_digit t')
               else if ascii_dec c "+" then (false, take_while is_digit t', drop_while is_digit t')
               else (false, take_while is_digit t, drop_while is_digit t)
  | [] => (false, [], [])
  end.
(** eofbit is set if the end was reached. *)
Definition at_end (t : text) : bool := match t with [] => true | _ => false end.
(** The least int. *)
Definition int_min : Z := - 2 ^ 31.
(** The largest int. *)
Definition int_max : Z := 2 ^ 31 - 1.
(** [stream >> n] for an [int]: without digits the result is 0, out of range it is the nearest limit; both fail. *)
Definition read_int (old : Z) (s : stream) : Z * stream :=
  match formatted s with
  | None => (old, formatted_failure s)
  | Some t =>
      let '(negative, ds, r) := scan_integer t in
      match ds with
      | [] => (0, Stream r (at_end r) true)
      | _ =>
          let v := if negative then - digits_value ds else digits_value ds in
          if v <? int_min then (int_min, Stream r (at_end r) true)
          else if int_max <? v then (int_max, Stream r (at_end r) true)
          else (v, Stream r (at_end r) false)
      end
  end.
(** [stream >> n] for a [std::size_t]: a minus sign negates modulo 2^64. *)
Definition read_size (old : Z) (s : stream) : Z * stream :=
  match formatted s with
  | None => (old, formatted_failure s)
  | Some t =>
      let '(negative, ds, r) := scan_integer t in
      match ds with
      | [] => (0, Stream r (at_end r) true)
      | _ =>
          let v := digits_value ds in
          if 2 ^ 64 - 1 <? v then (2 ^ 64 - 1, Stream r (at_end r) true)
          else ((if negative then (- v) mod 2 ^ 64 else v), Stream r (at_end r) false)
      end
  end.
(** [stream >> string]. *)
Definition read_word (old : text) (s : stream) : text * stream :=
  match formatted s with
  | None => (old, formatted_failure s)
  | Some t => let r := drop_while (fun c => negb (is_space c)) t in (take_while (fun c => negb (is_space c)) t, Stream r (at_end r) false)
  end.
