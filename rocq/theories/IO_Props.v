(** C08, C09: field splitting, decimal parsing, line scanning. *)
From Verif Require Import Base IO_Spec IO_Model IO_Proofs.
Open Scope N_scope.

(** C08.  Every line has exactly one list of words, and FastFields writes these words to
    the front of the destination, leaving the other entries as they were; it panics
    exactly if there are more words than entries. *)
Theorem C08_fast_fields : forall (fields : list (list N)) (line : list N),
  Forall (fun b => b < 256) line ->
  exists ws, splits line ws /\ (forall ws', splits line ws' -> ws' = ws) /\
    fast_fields fields line =
      if (length ws <=? length fields)%nat then Some (ws ++ drop (length ws) fields) else None.
Proof.
  intros fields line H. exists (words_from [] line). rewrite splits_iff. split; [done|].
  split; [intros ws'; by rewrite splits_iff|]. apply fast_fields_ok; [done|]. by apply splits_iff.
Qed.
Print Assumptions C08_fast_fields.

(** C08.  ToInt / ToIntStr of a digit string is its decimal value modulo 2^32. *)
Theorem C08_to_int : forall l, Forall digit l -> to_int l = decimal l mod 2 ^ 32.
Proof. exact to_int_ok. Qed.
Print Assumptions C08_to_int.

(** " 12\t7 x" into five fields, one of them stale. *)
Example C08_case : fast_fields [[1]; [1]; [1]; [57; 57]; [1]] [32; 49; 50; 9; 55; 32; 120]
  = Some [[49; 50]; [55]; [120]; [57; 57]; [1]].
Proof. vm_compute. reflexivity. Qed.
Example C08_too_many : fast_fields [[]; []] [49; 32; 50; 32; 51] = None.
Proof. vm_compute. reflexivity. Qed.
(** "4294967303" = 2^32 + 7. *)
Example C08_to_int_case : to_int [52; 50; 57; 52; 57; 54; 55; 51; 48; 51] = 7 /\
  decimal [52; 50; 57; 52; 57; 54; 55; 51; 48; 51] = 4294967303.
Proof. vm_compute. done. Qed.

(** C09.  Whatever sizes the reads return, the loop yields the lines of the file in order
    and then stops, provided every line is shorter than (the upper) half of the buffer. *)
Theorem C09_lines_independent_of_chunks : forall (bufsize : nat) (content : list N) (chunks : list nat),
  (0 < bufsize)%nat ->
  Forall (fun l => length l < bufsize - bufsize / 2)%nat (lines content) ->
  scan_file bufsize content chunks = (lines content, Nil).
Proof.
  intros B content chunks HB H. unfold scan_file. set (s := Scanner _ _ _ _ _).
  assert (pending s = content) as E by done.
  rewrite <- E at 2. apply (read_lines_ok B); [done| | |].
  - split; [apply replicate_length|]. simpl. lia.
  - by rewrite E.
  - rewrite E. lia.
Qed.
Print Assumptions C09_lines_independent_of_chunks.

(** The bound is tight: an 8-byte buffer and a line of 4 bytes panics ("token too long"). *)
Example C09_bound_tight : scan_file 8 [97; 97; 97; 10; 98; 98; 98; 98; 10] [8%nat] = ([[97; 97; 97]], TooLong)
  /\ scan_file 8 [97; 97; 97; 10; 98; 98; 98; 98; 10] [3%nat; 1%nat; 2%nat] = ([[97; 97; 97]], TooLong).
Proof. vm_compute. done. Qed.
(** The same file contents through different chunkings, including an empty line and a
    missing final newline. *)
Example C09_case :
  scan_file 8 [97; 98; 10; 10; 99; 99; 99; 10; 100] [1; 3; 1; 1]%nat = ([[97; 98]; []; [99; 99; 99]; [100]], Nil) /\
  scan_file 8 [97; 98; 10; 10; 99; 99; 99; 10; 100] [] = ([[97; 98]; []; [99; 99; 99]; [100]], Nil).
Proof. vm_compute. done. Qed.
