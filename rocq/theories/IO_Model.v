(** Model of utils/io.go and of the line loop of graph/stream.go. *)
From Verif Require Import Base.
Open Scope N_scope.

(** utils/io.go:41-46 [ToInt] (48-53 [ToIntStr] is the same loop): [buf[i]-'0'] is a byte
    subtraction, the accumulator a uint32. *)
Definition to_int (buf : list N) : N :=
  fold_left (fun n b => (n * 10 + (b + 256 - 48) mod 256) mod w32) buf 0.

(** utils/io.go:56-60.  The shift [1 << b] has type int: bits beyond 63 are lost. *)
Definition SPACE_MASK : N :=
  N.lor (N.shiftl 1 9) (N.lor (N.shiftl 1 10) (N.lor (N.shiftl 1 11)
    (N.lor (N.shiftl 1 12) (N.lor (N.shiftl 1 13) (N.shiftl 1 32))))).
Definition is_byte_space (b : N) : bool :=
  negb (N.land SPACE_MASK (N.shiftl 1 b mod w64) =? 0).

Definition slice (l : list N) (a b : nat) : list N := take (b - a) (drop a l).

(** The two "skip spaces" loops, utils/io.go:69-71 and 82-84. *)
Fixpoint skip_spaces (fuel : nat) (buf : list N) (i : nat) : nat :=
  match fuel with
  | O => i
  | S f =>
      match buf !! i with
      | Some b => if is_byte_space b then skip_spaces f buf (S i) else i
      | None => i
      end
  end.

(** utils/io.go:73-86, the main loop; [None] is the index panic of fieldBuff.  Result:
    fields, fieldStart, fieldIndex. *)
Fixpoint ff_loop (fuel : nat) (fields : list (list N)) (buf : list N) (start i fidx : nat)
  : option (list (list N) * nat * nat) :=
  match fuel with
  | O => Some (fields, start, fidx)
  | S f =>
      match buf !! i with
      | None => Some (fields, start, fidx)
      | Some b =>
          if negb (is_byte_space b) then ff_loop f fields buf start (S i) fidx
          else if (fidx <? length fields)%nat then
            let fields := <[fidx := slice buf start i]> fields in
            let i := skip_spaces (length buf) buf (S i) in
            ff_loop f fields buf i i (S fidx)
          else None
      end
  end.

(** utils/io.go:64-91 [FastFields]: the contents of fieldBuff afterwards.  The stored
    strings alias byteBuff; the model copies. *)
Definition fast_fields (fields : list (list N)) (buf : list N) : option (list (list N)) :=
  let i := skip_spaces (length buf) buf 0 in
  match ff_loop (length buf) fields buf i i 0 with
  | None => None
  | Some (fields, start, fidx) =>
      if (start <? length buf)%nat then
        if (fidx <? length fields)%nat then Some (<[fidx := drop start buf]> fields) else None
      else Some fields
  end.

(** ** FastFileLines *)

(** utils/io.go:118-122, with the unread rest of the file and the sizes of the coming
    reads (the environment's choice). *)
Record scanner := Scanner {
  sbuf : list N; sstart : nat; send : nat; file : list N; reads : list nat }.

Inductive scan_res := Token (l : list N) | Nil | TooLong | OutOfFuel.

(** file.Read into the free part: at end of file n = 0 and err = EOF; otherwise between 1
    and min(free, rest) bytes and no error (os.File never returns 0, nil for a non-empty
    buffer, so the "no progress" counter of lines 144-153 is not modelled).  Missing
    entries of [reads] mean "as much as possible". *)
Definition read_size (s : scanner) : nat :=
  let most := Nat.min (length (sbuf s) - send s) (length (file s)) in
  match reads s with
  | [] => most
  | k :: _ => Nat.max 1 (Nat.min k most)
  end.
Definition do_read (s : scanner) : scanner * bool :=
  match file s with
  | [] => (s, true)
  | _ =>
      let n := read_size s in
      (Scanner (take (send s) (sbuf s) ++ take n (file s) ++ drop (send s + n) (sbuf s))
         (sstart s) (send s + n) (drop n (file s)) (tail (reads s)), false)
  end.

(** bytes.IndexByte. *)
Fixpoint index_byte (c : N) (l : list N) : option nat :=
  match l with
  | [] => None
  | x :: l => if x =? c then Some O else option_map S (index_byte c l)
  end.

(** utils/io.go:131-133: for i := 0; i < n; i++ { buf[i] = buf[start+i] } *)
Fixpoint shift_loop (n i start : nat) (buf : list N) : list N :=
  match n with
  | O => buf
  | S n =>
      let buf := match buf !! (start + i)%nat with Some b => <[i := b]> buf | None => buf end in
      shift_loop n (S i) start buf
  end.

(** utils/io.go:125-174 [Scan].  One unfolding per iteration of the outer loop. *)
Fixpoint scan (fuel : nat) (s : scanner) : scan_res * scanner :=
  match fuel with
  | O => (OutOfFuel, s)
  | S f =>
      let s :=
        if (0 <? sstart s)%nat && (length (sbuf s) / 2 <? sstart s)%nat
        then Scanner (shift_loop (send s - sstart s) 0 (sstart s) (sbuf s))
               0 (send s - sstart s) (file s) (reads s)
        else s in
      if (send s =? length (sbuf s))%nat then (TooLong, s)
      else
        let '(s, eof) := do_read s in
        let found := if (sstart s <? send s)%nat
                     then index_byte 10 (slice (sbuf s) (sstart s) (send s)) else None in
        match found with
        | Some i => (Token (slice (sbuf s) (sstart s) (sstart s + i)),
                     Scanner (sbuf s) (sstart s + i + 1) (send s) (file s) (reads s))
        | None =>
            if eof then
              if (sstart s <? send s)%nat
              then (Token (slice (sbuf s) (sstart s) (send s)),
                    Scanner (sbuf s) (send s) (send s) (file s) (reads s))
              else (Nil, s)
            else scan f s
        end
  end.

(** graph/stream.go:263-271: first look for a line in the buffer, then Scan. *)
Definition next_line (s : scanner) : scan_res * scanner :=
  match index_byte 10 (slice (sbuf s) (sstart s) (send s)) with
  | Some i => (Token (slice (sbuf s) (sstart s) (sstart s + i)),
               Scanner (sbuf s) (sstart s + i + 1) (send s) (file s) (reads s))
  | None => scan (length (file s) + 2) s
  end.

(** Reading until nil: the lines, and whether it ended without a panic. *)
Fixpoint read_lines (fuel : nat) (s : scanner) : list (list N) * scan_res :=
  match fuel with
  | O => ([], OutOfFuel)
  | S f =>
      match next_line s with
      | (Token l, s) => let '(r, e) := read_lines f s in (l :: r, e)
      | (e, _) => ([], e)
      end
  end.
Definition scan_file (bufsize : nat) (content : list N) (chunks : list nat) :=
  read_lines (length content + 2) (Scanner (replicate bufsize 0) 0 0 content chunks).
