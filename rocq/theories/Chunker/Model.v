(** Model of the content-defined file chunker,
    /repo/src/buildtool/storage/file_chunker.{hpp,cpp}. *)
From Coq Require Import List Ascii NArith Arith Bool.
Import ListNotations.

(** The part of std::ifstream the chunker uses: the bytes not yet delivered,
    the end-of-file flag, the error flag, and for each later call of [read]
    whether the operating system will fail it (a missing entry means "no").
    Simplification: failbit is only set together with eofbit or badbit. *)
Record istream := mkStream
  { rest : list ascii; eof : bool; bad : bool; faults : list bool }.

(** std::ios::good. *)
Definition good (s : istream) : bool := (negb (eof s) && negb (bad s))%bool.

(** std::istream::read, as called in file_chunker.cpp:66: delivers the next
    [n] bytes; with fewer bytes left it delivers those and sets eofbit; a
    failing call delivers nothing and sets badbit. The number of delivered
    bytes is gcount(). *)
Definition read (n : nat) (s : istream) : list ascii * istream :=
  match faults s with
  | true :: f => ([], mkStream (rest s) (eof s) true f)
  | f =>
      if length (rest s) <? n
      then (rest s, mkStream [] true (bad s) (tl f))
      else (firstn n (rest s), mkStream (skipn n (rest s)) (eof s) (bad s) (tl f))
  end.

(** Members of the class, file_chunker.hpp:86-93. [buffer] always has the full
    length given by resize in the constructor; bytes from [size] on are stale. *)
Record state := mkState
  { stream : istream; buffer : list ascii; size : nat; pos : nat }.

(** file_chunker.cpp:26-27. *)
Definition kMaskS : N := 0x4444d9f003530000%N.
Definition kMaskL : N := 0x4444d90003530000%N.

Section Chunker.

(** file_chunker.hpp:36, 48-50, 55: the chunk sizes and the buffer size are
    parameters here; the values of the code are at the end of this file. *)
Variables min_chunk_size average_chunk_size max_chunk_size buffer_size : nat.

(** gear_table, file_chunker.cpp:30-32, 36-41: 256 numbers of 64 bits; the
    generator std::mt19937_64 filling it is not modelled, any table is
    covered. *)
Variable gear_table : ascii -> N.

(** Constructor, file_chunker.hpp:43-56. *)
Definition open (content : list ascii) (fs : list bool) : state :=
  mkState (mkStream content false false fs) (repeat zero buffer_size) 0 0.

(** Finished, file_chunker.cpp:47-49. *)
Definition Finished (st : state) : bool :=
  (eof (stream st) && (pos st =? size st))%bool.

(** fp = (fp << 1U) + gear_table[byte], 64 bits, file_chunker.cpp:101-102 and
    108-109. *)
Definition roll (fp : N) (b : ascii) : N :=
  ((fp * 2) mod 2 ^ 64 + gear_table b) mod 2 ^ 64.

(** The loops in file_chunker.cpp:100-106 and 107-113: at most [todo] rounds
    from index [i] on; [inl] is "return i", [inr] the values of i and fp after
    the loop. *)
Fixpoint scan (mask : N) (todo i : nat) (fp : N) (buf : list ascii) (p : nat)
  : nat + nat * N :=
  match todo with
  | O => inr (i, fp)
  | S k =>
      let fp' := roll fp (nth (p + i) buf zero) in
      if (N.land fp' mask =? 0)%N then inl i
      else scan mask k (S i) fp' buf p
  end.

(** NextChunkBoundary, file_chunker.cpp:86-115. *)
Definition NextChunkBoundary (buf : list ascii) (sz p : nat) : nat :=
  let n := sz - p in
  if n <=? min_chunk_size then n
  else
    let '(n, normal_size) :=
      if max_chunk_size <=? n then (max_chunk_size, average_chunk_size)
      else if n <=? average_chunk_size then (n, n)
      else (n, average_chunk_size) in
    match scan kMaskS (normal_size - min_chunk_size) min_chunk_size 0 buf p with
    | inl i => i
    | inr (i, fp) =>
        match scan kMaskL (n - i) i fp buf p with
        | inl j => j
        | inr (j, _) => j
        end
    end.

(** Result of a call: the overlapping std::string::copy is undefined behaviour
    and kept apart. *)
Inductive result := UB | Ret (chunk : option (list ascii)) (st : state).

(** std::string::copy(data, n, p) onto the own data, file_chunker.cpp:63; its
    ranges [p, p+n) and [0, n) must not overlap. *)
Definition overlaps (n p : nat) : bool := ((0 <? n) && (p <? n))%bool.
Definition copy_front (buf : list ascii) (n p : nat) : list ascii :=
  firstn n (skipn p buf) ++ skipn n buf.

(** Effect of stream_.read(&buffer_[off], _) on the buffer. *)
Definition write_at (buf : list ascii) (off : nat) (bytes : list ascii) : list ascii :=
  firstn off buf ++ bytes ++ skipn (off + length bytes) buf.

(** NextChunk, file_chunker.cpp:51-82: the last part, lines 74-81. *)
Definition deliver (st : state) : result :=
  if pos st =? size st then Ret None st
  else
    let off := NextChunkBoundary (buffer st) (size st) (pos st) in
    Ret (Some (firstn off (skipn (pos st) (buffer st))))
        (mkState (stream st) (buffer st) (size st) (pos st + off)).

(** NextChunk, file_chunker.cpp:51-82. *)
Definition NextChunk (st : state) : result :=
  if (negb (good (stream st)) && negb (eof (stream st)))%bool then Ret None st
  else
    let remaining := size st - pos st in
    if ((remaining <? max_chunk_size) && negb (eof (stream st)))%bool then
      if overlaps remaining (pos st) then UB
      else
        let buf := copy_front (buffer st) remaining (pos st) in
        let '(bytes, s) := read (length buf - remaining) (stream st) in
        let buf' := write_at buf remaining bytes in
        if (negb (good s) && negb (eof s))%bool
        then Ret None (mkState s buf' (size st) (pos st))
        else deliver (mkState s buf' (length bytes + remaining) 0)
    else deliver st.

(** The loop over all chunks as in large_object_cas.tpp:142-156 and in
    execution_service/cas_utils.cpp (SplitBlobFastCDC goes through it):
    call NextChunk until it returns nullopt. [None]: out of fuel. *)
Inductive outcome := Undefined | Chunks (cs : list (list ascii)) (final : state).

Fixpoint collect (fuel : nat) (st : state) (acc : list (list ascii)) : option outcome :=
  match fuel with
  | O => None
  | S f =>
      match NextChunk st with
      | UB => Some Undefined
      | Ret None st' => Some (Chunks (rev acc) st')
      | Ret (Some c) st' => collect f st' (c :: acc)
      end
  end.

End Chunker.

(** The sizes of the code, file_chunker.hpp:36, 48-50, 55. *)
Definition kAverageChunkSize : nat := N.to_nat (1024 * 128).
Definition kMinChunkSize : nat := N.to_nat (N.shiftr (1024 * 128) 2).
Definition kMaxChunkSize : nat := N.to_nat (N.shiftl (1024 * 128) 3).
Definition kBufferSize : nat := N.to_nat (N.shiftl (N.shiftl (1024 * 128) 3) 1).

(** Chunking a whole file with the sizes of the code. *)
Definition chunk_file (gear_table : ascii -> N) (fuel : nat) (content : list ascii)
    (fs : list bool) : option outcome :=
  collect kMinChunkSize kAverageChunkSize kMaxChunkSize gear_table fuel
    (open kBufferSize content fs) [].
