(** Model of origin's `memcpy`, `memmove`, `memset`, `memcmp`, `bcmp` and
    `strlen`: src/mem/small.rs, src/mem/fast.rs, src/mem/impls.rs,
    src/mem/x86_64.rs.

    Pointer additions are plain [Z] additions (Rust's `ptr::add` is undefined
    on overflow, so callers guarantee there is none); `wrapping_*`, masks and
    shifts are modelled exactly.  A `while`/`loop` is recursion on fuel that
    returns [None] when the fuel runs out. *)
From Verif Require Import Machine.

(** * src/mem/small.rs *)

(** small.rs:14-19 (and memmove's forward loop 31-36): byte loop upwards. *)
Fixpoint small_fwd (fuel : nat) (dst src dst_end : Z) (s : mst) : option mst :=
  match fuel with
  | O => None
  | S f =>
    if dst <? dst_end then
      let '(b, s1) := load1 src s in
      let s2 := store1 dst b s1 in
      small_fwd f (dst + 1) (src + 1) dst_end s2
    else Some s
  end.

(** small.rs:41-46: byte loop downwards. *)
Fixpoint small_bwd (fuel : nat) (dst src dst_start : Z) (s : mst) : option mst :=
  match fuel with
  | O => None
  | S f =>
    if dst_start <? dst then
      let dst := dst - 1 in
      let src := src - 1 in
      let '(b, s1) := load1 src s in
      let s2 := store1 dst b s1 in
      small_bwd f dst src dst_start s2
    else Some s
  end.

(** small.rs:9-21 `memcpy`. *)
Definition small_memcpy (dst src len : Z) (s : mst) : option (Z * mst) :=
  match small_fwd (S (Z.to_nat len)) dst src (dst + len) s with
  | Some s' => Some (dst, s')
  | None => None
  end.

(** small.rs:24-49 `memmove`. *)
Definition small_memmove (ws dst src len : Z) (s : mst) : option (Z * mst) :=
  let delta := wrapping_sub ws dst src in
  let r :=
    if len <=? delta then small_fwd (S (Z.to_nat len)) dst src (dst + len) s
    else small_bwd (S (Z.to_nat len)) (dst + len) (src + len) dst s in
  match r with Some s' => Some (dst, s') | None => None end.

(** small.rs:55-59: fill loop; [fill] is the already truncated byte. *)
Fixpoint small_fill (fuel : nat) (p fill end_ : Z) (s : mst) : option mst :=
  match fuel with
  | O => None
  | S f => if p <? end_ then small_fill f (p + 1) fill end_ (store1 p fill s)
           else Some s
  end.

(** small.rs:52-61 `memset`; `fill as _` truncates the C int to a u8. *)
Definition small_memset (dst fill len : Z) (s : mst) : option (Z * mst) :=
  match small_fill (S (Z.to_nat len)) dst (fill mod 256) (dst + len) s with
  | Some s' => Some (dst, s')
  | None => None
  end.

(** small.rs:67-77 / impls.rs:290-299: compare loop. *)
Fixpoint cmp_loop (fuel : nat) (i len a b : Z) (s : mst) : option (Z * mst) :=
  match fuel with
  | O => None
  | S f =>
    if i <? len then
      let '(x, s1) := load1 (a + i) s in
      let '(y, s2) := load1 (b + i) s1 in
      if negb (x =? y) then Some (x - y, s2)
      else cmp_loop f (i + 1) len a b s2
    else Some (0, s)
  end.

(** small.rs:64-78 `memcmp`; small.rs:82-84 `bcmp` calls it. *)
Definition small_memcmp (a b len : Z) (s : mst) : option (Z * mst) :=
  cmp_loop (S (Z.to_nat len)) 0 len a b s.
Definition small_bcmp := small_memcmp.

(** small.rs:87-96 / impls.rs:303-310: byte-wise strlen.  The fuel bounds the
    number of iterations; the real loop has no bound. *)
Fixpoint strlen_loop (fuel : nat) (p n : Z) (s : mst) : option (Z * mst) :=
  match fuel with
  | O => None
  | S f =>
    let '(c, s1) := load1 p s in
    if negb (c =? 0) then strlen_loop f (p + 1) (n + 1) s1 else Some (n, s1)
  end.
Definition small_strlen (fuel : nat) (p : Z) (s : mst) : option (Z * mst) :=
  strlen_loop fuel p 0 s.

(** * src/mem/impls.rs (every target except x86_64) *)

(** impls.rs:7-8 WORD_SIZE, WORD_MASK. *)
Definition word_mask (ws : Z) : Z := ws - 1.
(** impls.rs:17-21 WORD_COPY_THRESHOLD. *)
Definition word_copy_threshold (ws : Z) : Z := if 16 <? 2 * ws then 2 * ws else 16.

(** impls.rs:39-46 copy_forward_bytes. *)
Definition copy_forward_bytes (dest src n : Z) (s : mst) : option mst :=
  small_fwd (S (Z.to_nat n)) dest src (dest + n) s.

(** impls.rs:54-58, and with `read_usize_unaligned` (29-34) impls.rs:107-111:
    both loops load one word from src and store it at dest. *)
Fixpoint words_fwd (fuel : nat) (be : bool) (ws : Z) (dest src dest_end : Z) (s : mst) : option mst :=
  match fuel with
  | O => None
  | S f =>
    if dest <? dest_end then
      let '(w, s1) := load_n be (Z.to_nat ws) src s in
      let s2 := store_n be (Z.to_nat ws) dest w s1 in
      words_fwd f be ws (dest + ws) (src + ws) dest_end s2
    else Some s
  end.

(** impls.rs:49-59 copy_forward_aligned_words. *)
Definition copy_forward_aligned_words (be : bool) (ws dest src n : Z) (s : mst) : option mst :=
  words_fwd (S (Z.to_nat n)) be ws dest src (dest + n) s.

(** impls.rs:81-92: the shift-and-merge loop for targets without unaligned
    loads.  Line 85 (little endian) / line 87 (big endian). *)
Definition merge_fwd (be : bool) (ws prev cur shift : Z) : Z :=
  if be
  then Z.lor (shl_usize ws prev shift) (shr_usize cur (ws * 8 - shift))
  else Z.lor (shr_usize prev shift) (shl_usize ws cur (ws * 8 - shift)).

Fixpoint shift_fwd (fuel : nat) (be : bool) (ws dest dest_end src_aligned prev shift : Z) (s : mst) : option mst :=
  match fuel with
  | O => None
  | S f =>
    if dest <? dest_end then
      let src_aligned := src_aligned + ws in
      let '(cur, s1) := load_n be (Z.to_nat ws) src_aligned s in
      let resembled := merge_fwd be ws prev cur shift in
      let s2 := store_n be (Z.to_nat ws) dest resembled s1 in
      shift_fwd f be ws (dest + ws) dest_end src_aligned cur shift s2
    else Some s
  end.

(** impls.rs:68-93 (no unaligned access; [unal]=false) and 102-112
    (x86/aarch64; [unal]=true) copy_forward_misaligned_words.  `oob_load`
    (arch/riscv64.rs:132-143) is a plain word load. *)
Definition copy_forward_misaligned_words (unal be : bool) (ws dest src n : Z) (s : mst) : option mst :=
  if unal then words_fwd (S (Z.to_nat n)) be ws dest src (dest + n) s
  else
    let offset := Z.land src (word_mask ws) in
    let shift := offset * 8 in
    let src_aligned := Z.land src (not_usize ws (word_mask ws)) in
    let '(prev, s1) := load_n be (Z.to_nat ws) src_aligned s in
    shift_fwd (S (Z.to_nat n)) be ws dest (dest + n) src_aligned prev shift s1.

(** impls.rs:37, 114-135 copy_forward. *)
Definition copy_forward (unal be : bool) (ws dest src n : Z) (s : mst) : option mst :=
  if word_copy_threshold ws <=? n then
    let dest_misalignment := Z.land (wrapping_neg ws dest) (word_mask ws) in
    match copy_forward_bytes dest src dest_misalignment s with
    | None => None
    | Some s1 =>
      let dest := dest + dest_misalignment in
      let src := src + dest_misalignment in
      let n := n - dest_misalignment in
      let n_words := Z.land n (not_usize ws (word_mask ws)) in
      let src_misalignment := Z.land src (word_mask ws) in
      match (if src_misalignment =? 0
             then copy_forward_aligned_words be ws dest src n_words s1
             else copy_forward_misaligned_words unal be ws dest src n_words s1) with
      | None => None
      | Some s2 =>
        let dest := dest + n_words in
        let src := src + n_words in
        let n := n - n_words in
        copy_forward_bytes dest src n s2
      end
    end
  else copy_forward_bytes dest src n s.

(** impls.rs:142-149 copy_backward_bytes (pointers past the end). *)
Definition copy_backward_bytes (dest src n : Z) (s : mst) : option mst :=
  small_bwd (S (Z.to_nat n)) dest src (dest - n) s.

(** impls.rs:157-161 and 210-214: word loop downwards. *)
Fixpoint words_bwd (fuel : nat) (be : bool) (ws : Z) (dest src dest_start : Z) (s : mst) : option mst :=
  match fuel with
  | O => None
  | S f =>
    if dest_start <? dest then
      let dest := dest - ws in
      let src := src - ws in
      let '(w, s1) := load_n be (Z.to_nat ws) src s in
      let s2 := store_n be (Z.to_nat ws) dest w s1 in
      words_bwd f be ws dest src dest_start s2
    else Some s
  end.

(** impls.rs:152-162 copy_backward_aligned_words. *)
Definition copy_backward_aligned_words (be : bool) (ws dest src n : Z) (s : mst) : option mst :=
  words_bwd (S (Z.to_nat n)) be ws dest src (dest - n) s.

(** impls.rs:187-190: line 188 (little endian) / 190 (big endian). *)
Definition merge_bwd (be : bool) (ws prev cur shift : Z) : Z :=
  if be
  then Z.lor (shr_usize prev (ws * 8 - shift)) (shl_usize ws cur shift)
  else Z.lor (shl_usize ws prev (ws * 8 - shift)) (shr_usize cur shift).

(** impls.rs:184-195. *)
Fixpoint shift_bwd (fuel : nat) (be : bool) (ws dest dest_start src_aligned prev shift : Z) (s : mst) : option mst :=
  match fuel with
  | O => None
  | S f =>
    if dest_start <? dest then
      let src_aligned := src_aligned - ws in
      let '(cur, s1) := load_n be (Z.to_nat ws) src_aligned s in
      let resembled := merge_bwd be ws prev cur shift in
      let dest := dest - ws in
      let s2 := store_n be (Z.to_nat ws) dest resembled s1 in
      shift_bwd f be ws dest dest_start src_aligned cur shift s2
    else Some s
  end.

(** impls.rs:171-196 / 205-215 copy_backward_misaligned_words. *)
Definition copy_backward_misaligned_words (unal be : bool) (ws dest src n : Z) (s : mst) : option mst :=
  if unal then words_bwd (S (Z.to_nat n)) be ws dest src (dest - n) s
  else
    let offset := Z.land src (word_mask ws) in
    let shift := offset * 8 in
    let src_aligned := Z.land src (not_usize ws (word_mask ws)) in
    let '(prev, s1) := load_n be (Z.to_nat ws) src_aligned s in
    shift_bwd (S (Z.to_nat n)) be ws dest (dest - n) src_aligned prev shift s1.

(** impls.rs:138, 217-241 copy_backward. *)
Definition copy_backward (unal be : bool) (ws dest src n : Z) (s : mst) : option mst :=
  let dest := dest + n in
  let src := src + n in
  if word_copy_threshold ws <=? n then
    let dest_misalignment := Z.land dest (word_mask ws) in
    match copy_backward_bytes dest src dest_misalignment s with
    | None => None
    | Some s1 =>
      let dest := dest - dest_misalignment in
      let src := src - dest_misalignment in
      let n := n - dest_misalignment in
      let n_words := Z.land n (not_usize ws (word_mask ws)) in
      let src_misalignment := Z.land src (word_mask ws) in
      match (if src_misalignment =? 0
             then copy_backward_aligned_words be ws dest src n_words s1
             else copy_backward_misaligned_words unal be ws dest src n_words s1) with
      | None => None
      | Some s2 =>
        let dest := dest - n_words in
        let src := src - n_words in
        let n := n - n_words in
        copy_backward_bytes dest src n s2
      end
    end
  else copy_backward_bytes dest src n s.

(** impls.rs:246-252 set_bytes_bytes. *)
Definition set_bytes_bytes (p c n : Z) (s : mst) : option mst :=
  small_fill (S (Z.to_nat n)) p c (p + n) s.

(** impls.rs:256-261: the broadcast loop. *)
Fixpoint broadcast_loop (fuel : nat) (ws broadcast bits : Z) : option Z :=
  match fuel with
  | O => None
  | S f =>
    if bits <? ws * 8
    then broadcast_loop f ws (Z.lor broadcast (shl_usize ws broadcast bits)) (bits * 2)
    else Some broadcast
  end.

(** impls.rs:266-269: word fill loop. *)
Fixpoint fill_words (fuel : nat) (be : bool) (ws p end_ broadcast : Z) (s : mst) : option mst :=
  match fuel with
  | O => None
  | S f =>
    if p <? end_
    then fill_words f be ws (p + ws) end_ broadcast (store_n be (Z.to_nat ws) p broadcast s)
    else Some s
  end.

(** impls.rs:255-270 set_bytes_words. *)
Definition set_bytes_words (be : bool) (ws p c n : Z) (s : mst) : option mst :=
  match broadcast_loop 5 ws c 8 with
  | None => None
  | Some broadcast => fill_words (S (Z.to_nat n)) be ws p (p + n) broadcast s
  end.

(** impls.rs:244, 272-286 set_bytes. *)
Definition set_bytes (be : bool) (ws p c n : Z) (s : mst) : option mst :=
  if word_copy_threshold ws <=? n then
    let misalignment := Z.land (wrapping_neg ws p) (word_mask ws) in
    match set_bytes_bytes p c misalignment s with
    | None => None
    | Some s1 =>
      let p := p + misalignment in
      let n := n - misalignment in
      let n_words := Z.land n (not_usize ws (word_mask ws)) in
      match set_bytes_words be ws p c n_words s1 with
      | None => None
      | Some s2 =>
        let p := p + n_words in
        let n := n - n_words in
        set_bytes_bytes p c n s2
      end
    end
  else set_bytes_bytes p c n s.

(** impls.rs:289-300 compare_bytes. *)
Definition compare_bytes (a b n : Z) (s : mst) : option (Z * mst) :=
  cmp_loop (S (Z.to_nat n)) 0 n a b s.

(** impls.rs:303-310 c_string_length. *)
Definition c_string_length (fuel : nat) (p : Z) (s : mst) : option (Z * mst) :=
  strlen_loop fuel p 0 s.

(** * src/mem/x86_64.rs *)

(** x86_64.rs:308-315 rep_param. *)
Definition rep_param (dest count : Z) : Z * Z * Z :=
  let pre_byte_count := Z.min (Z.land (8 - Z.land dest 7) 7) count in
  let count := count - pre_byte_count in
  let qword_count := Z.shiftr count 3 in
  let byte_count := Z.land count 7 in
  (pre_byte_count, qword_count, byte_count).

(** The x86 `rep movs{b,q}` instruction: [w] is the element width (1 or 8),
    [df] the direction flag, [rcx] the count.  Returns (rdi, rsi, state). *)
Fixpoint rep_movs (rcx : nat) (w : Z) (df : bool) (rdi rsi : Z) (s : mst) : Z * Z * mst :=
  match rcx with
  | O => (rdi, rsi, s)
  | S k =>
    let '(v, s1) := load_n false (Z.to_nat w) rsi s in
    let s2 := store_n false (Z.to_nat w) rdi v s1 in
    let step := if df then - w else w in
    rep_movs k w df (rdi + step) (rsi + step) s2
  end.

(** The x86 `rep stos{b,q}` instruction with DF=0; [rax] is the value (its low
    [w] bytes are stored). *)
Fixpoint rep_stos (rcx : nat) (w rax : Z) (rdi : Z) (s : mst) : Z * mst :=
  match rcx with
  | O => (rdi, s)
  | S k => rep_stos k w rax (rdi + w) (store_n false (Z.to_nat w) rdi (rax mod 2 ^ (8 * w)) s)
  end.

(** x86_64.rs:28-39 (ERMSB) and 41-67: copy_forward.  The ABI guarantees DF=0
    on entry. *)
Definition x64_copy_forward (ermsb : bool) (dest src count : Z) (s : mst) : mst :=
  if ermsb then
    let '(_, _, s1) := rep_movs (Z.to_nat count) 1 false dest src s in s1
  else
    let '(pre, qwords, post) := rep_param dest count in
    let '(dest, src, s1) := rep_movs (Z.to_nat pre) 1 false dest src s in
    let '(dest, src, s2) := rep_movs (Z.to_nat qwords) 8 false dest src s1 in
    let '(_, _, s3) := rep_movs (Z.to_nat post) 1 false dest src s2 in
    s3.

(** x86_64.rs:70-94 copy_backward.  Returns the direction flag left behind
    as well as the state. *)
Definition x64_copy_backward (dest src count : Z) (s : mst) : bool * mst :=
  let '(pre, qwords, post) := rep_param dest count in
  let rdi := dest + (count - 1) in
  let rsi := src + (count - 1) in
  let df := true in                                            (* std *)
  let '(rdi, rsi, s1) := rep_movs (Z.to_nat post) 1 df rdi rsi s in  (* rep movsb *)
  let rsi := rsi - 7 in                                        (* sub $7, %rsi *)
  let rdi := rdi - 7 in                                        (* sub $7, %rdi *)
  let '(rdi, rsi, s2) := rep_movs (Z.to_nat qwords) 8 df rdi rsi s1 in (* rep movsq *)
  let rsi := rsi + 7 in                                        (* add $7, %rsi *)
  let rdi := rdi + 7 in                                        (* add $7, %rdi *)
  let '(_, _, s3) := rep_movs (Z.to_nat pre) 1 df rdi rsi s2 in (* rep movsb *)
  let df := false in                                           (* cld *)
  (df, s3).

(** x86_64.rs:96-107 (ERMSB) and 109-136: set_bytes. *)
Definition x64_set_bytes (ermsb : bool) (dest c count : Z) (s : mst) : mst :=
  if ermsb then let '(_, s1) := rep_stos (Z.to_nat count) 1 c dest s in s1
  else
    let c := c * 0x0101010101010101 in
    let '(pre, qwords, post) := rep_param dest count in
    let '(dest, s1) := rep_stos (Z.to_nat pre) 1 c dest s in
    let '(dest, s2) := rep_stos (Z.to_nat qwords) 8 c dest s1 in
    let '(_, s3) := rep_stos (Z.to_nat post) 1 c dest s2 in
    s3.

(** x86_64.rs:160-169: the byte comparer `c1` (a `for _ in 0..n` loop).  The
    mismatch branch reads both bytes again, as the code does. *)
Fixpoint x64_c1 (n : nat) (a b : Z) (s : mst) : Z * mst :=
  match n with
  | O => (0, s)
  | S k =>
    let '(x, s1) := load1 a s in
    let '(y, s2) := load1 b s1 in
    if negb (x =? y) then
      let '(x, s3) := load1 a s2 in
      let '(y, s4) := load1 b s3 in
      (x - y, s4)
    else x64_c1 k (a + 1) (b + 1) s2
  end.

(** x86_64.rs:151-158: the body of the generic `cmp` for an element type of
    [w] bytes; [f] is the next narrower comparer; [rem] is [n % w].  The
    iteration count [n / w] is recursed on structurally ([a != end]). *)
Fixpoint x64_cmp (k : nat) (w : Z) (f : Z -> Z -> Z -> mst -> Z * mst) (rem a b : Z) (s : mst) : Z * mst :=
  match k with
  | O => f a b rem s
  | S k' =>
    let '(x, s1) := load_n false (Z.to_nat w) a s in
    let '(y, s2) := load_n false (Z.to_nat w) b s1 in
    if negb (x =? y) then f a b w s2
    else x64_cmp k' w f rem (a + w) (b + w) s2
  end.

(** x86_64.rs:160-174: c1, c2, c4, c8, c16 and compare_bytes. *)
Definition x64_k1 (a b n : Z) (s : mst) := x64_c1 (Z.to_nat n) a b s.
Definition x64_k2 (a b n : Z) (s : mst) := x64_cmp (Z.to_nat (n / 2)) 2 x64_k1 (n mod 2) a b s.
Definition x64_k4 (a b n : Z) (s : mst) := x64_cmp (Z.to_nat (n / 4)) 4 x64_k2 (n mod 4) a b s.
Definition x64_k8 (a b n : Z) (s : mst) := x64_cmp (Z.to_nat (n / 8)) 8 x64_k4 (n mod 8) a b s.
Definition x64_k16 (a b n : Z) (s : mst) := x64_cmp (Z.to_nat (n / 16)) 16 x64_k8 (n mod 16) a b s.
Definition x64_compare_bytes (a b n : Z) (s : mst) : Z * mst := x64_k16 a b n s.

(** SSE2 `_mm_movemask_epi8(_mm_cmpeq_epi8(x, zero))` of the [n]-byte chunk
    at [a]: bit i is set iff byte i is zero (x86_64.rs:224, 244). *)
Fixpoint movemask_zero (m : mem) (a : Z) (n : nat) : Z :=
  match n with
  | O => 0
  | S k => (if m a =? 0 then 1 else 0) + 2 * movemask_zero m (a + 1) k
  end.

(** `trailing_zeros` of a nonzero value of at most [n] bits. *)
Fixpoint trailing_zeros (n : nat) (x : Z) : Z :=
  match n with
  | O => 0
  | S k => if Z.odd x then 0 else 1 + trailing_zeros k (x / 2)
  end.

(** A 16-byte `movdqa` load (x86_64.rs:216-221, 236-241). *)
Definition load_chunk (a : Z) (s : mst) : mst :=
  MSt (bytes s) ((a, 16) :: rlog s) (wlog s).

(** x86_64.rs:233-251: the aligned chunk loop. *)
Fixpoint sse_loop (fuel : nat) (p n : Z) (s : mst) : option (Z * mst) :=
  match fuel with
  | O => None
  | S f =>
    let s1 := load_chunk p s in
    let cmp := movemask_zero (bytes s) p 16 in
    if cmp =? 0 then sse_loop f (p + 16) (n + 16) s1
    else Some (n + trailing_zeros 32 cmp, s1)
  end.

(** x86_64.rs:198-205: the first (at most 4) bytes; [inl n] = returned early,
    [inr (p, n)] = fell through. *)
Fixpoint sse_head (k : nat) (p n : Z) (s : mst) : (Z + (Z * Z)) * mst :=
  match k with
  | O => (inr (p, n), s)
  | S k' =>
    let '(c, s1) := load1 p s in
    if c =? 0 then (inl n, s1) else sse_head k' (p + 1) (n + 1) s1
  end.

(** x86_64.rs:187-252 c_string_length with SSE2. *)
Definition x64_strlen_sse2 (fuel : nat) (p : Z) (s : mst) : option (Z * mst) :=
  match sse_head 4 p 0 s with
  | (inl n, s1) => Some (n, s1)
  | (inr (p, n), s1) =>
    let align := Z.land p 15 in
    let q := p - align in
    let s2 := load_chunk q s1 in
    let cmp := Z.shiftr (movemask_zero (bytes s1) q 16) align in
    if negb (cmp =? 0) then Some (n + trailing_zeros 32 cmp, s2)
    else sse_loop fuel (q + 16) (n + (16 - align)) s2
  end.

(** x86_64.rs:265-271: byte steps until 8-aligned; at most 7 iterations. *)
Fixpoint bt_head (fuel : nat) (p n : Z) (s : mst) : option ((Z + (Z * Z)) * mst) :=
  match fuel with
  | O => None
  | S f =>
    if negb (Z.land p 7 =? 0) then
      let '(c, s1) := load1 p s in
      if c =? 0 then Some (inl n, s1) else bt_head f (p + 1) (n + 1) s1
    else Some (inr (p, n), s)
  end.

(** x86_64.rs:291: the "has a zero byte" bit trick. *)
Definition haszero (cs : Z) : bool :=
  negb (Z.land (Z.land (wrapping_sub 8 cs 0x0101010101010101) (not_usize 8 cs)) 0x8080808080808080 =? 0).

(** x86_64.rs:292-299: locate the zero byte in the word. *)
Fixpoint bt_find (fuel : nat) (cs n : Z) : option Z :=
  match fuel with
  | O => None
  | S f => if Z.land cs 255 =? 0 then Some n else bt_find f (Z.shiftr cs 8) (n + 1)
  end.

(** x86_64.rs:278-304. *)
Fixpoint bt_loop (fuel : nat) (p n : Z) (s : mst) : option (Z * mst) :=
  match fuel with
  | O => None
  | S f =>
    let '(cs, s1) := load_n false 8 p s in
    if haszero cs then
      match bt_find 9 cs n with
      | Some r => Some (r, s1)
      | None => None
      end
    else bt_loop f (p + 8) (n + 8) s1
  end.

(** x86_64.rs:256-305 c_string_length without SSE2. *)
Definition x64_strlen_bt (fuel : nat) (p : Z) (s : mst) : option (Z * mst) :=
  match bt_head 8 p 0 s with
  | None => None
  | Some (inl n, s1) => Some (n, s1)
  | Some (inr (p, n), s1) => bt_loop fuel p n s1
  end.

(** * src/mem/mod.rs, src/mem/fast.rs: the exported functions, per build *)

(** The build configurations: mod.rs:4-7 selects small or fast; fast.rs:10-12
    selects x86_64.rs or impls.rs; impls.rs selects the misaligned strategy by
    target and endianness; x86_64.rs by target features. *)
Inductive variant :=
| Small (ws : Z)
| Portable (ws : Z) (be unal : bool)
| X64 (ermsb sse2 : bool).

Definition variant_ws (v : variant) : Z :=
  match v with Small ws => ws | Portable ws _ _ => ws | X64 _ _ => 8 end.

(** The configurations that exist: usize is 4 or 8 bytes. *)
Definition variant_ok (v : variant) : Prop := variant_ws v = 4 \/ variant_ws v = 8.

Definition ret {A} (a : Z) (r : option A) : option (Z * A) :=
  match r with Some x => Some (a, x) | None => None end.

(** fast.rs:15-18 / small.rs:9-21. *)
Definition memcpy (v : variant) (dest src n : Z) (s : mst) : option (Z * mst) :=
  match v with
  | Small _ => small_memcpy dest src n s
  | Portable ws be unal => ret dest (copy_forward unal be ws dest src n s)
  | X64 ermsb _ => Some (dest, x64_copy_forward ermsb dest src n s)
  end.

(** fast.rs:21-31 / small.rs:24-49. *)
Definition memmove (v : variant) (dest src n : Z) (s : mst) : option (Z * mst) :=
  match v with
  | Small ws => small_memmove ws dest src n s
  | Portable ws be unal =>
    let delta := wrapping_sub ws dest src in
    ret dest (if n <=? delta then copy_forward unal be ws dest src n s
              else copy_backward unal be ws dest src n s)
  | X64 ermsb _ =>
    let delta := wrapping_sub 8 dest src in
    if n <=? delta then Some (dest, x64_copy_forward ermsb dest src n s)
    else let '(_, s') := x64_copy_backward dest src n s in Some (dest, s')
  end.

(** fast.rs:34-37 (`c as u8`) / small.rs:52-61. *)
Definition memset (v : variant) (p c n : Z) (s : mst) : option (Z * mst) :=
  match v with
  | Small _ => small_memset p c n s
  | Portable ws be _ => ret p (set_bytes be ws p (c mod 256) n s)
  | X64 ermsb _ => Some (p, x64_set_bytes ermsb p (c mod 256) n s)
  end.

(** fast.rs:40-42 / small.rs:64-78; fast.rs:45-47 bcmp calls memcmp. *)
Definition memcmp (v : variant) (a b n : Z) (s : mst) : option (Z * mst) :=
  match v with
  | Small _ => small_memcmp a b n s
  | Portable _ _ _ => compare_bytes a b n s
  | X64 _ _ => Some (x64_compare_bytes a b n s)
  end.
Definition bcmp (v : variant) (a b n : Z) (s : mst) : option (Z * mst) := memcmp v a b n s.

(** fast.rs:50-52 / small.rs:87-96. *)
Definition strlen (v : variant) (fuel : nat) (p : Z) (s : mst) : option (Z * mst) :=
  match v with
  | Small _ => small_strlen fuel p s
  | Portable _ _ _ => c_string_length fuel p s
  | X64 _ true => x64_strlen_sse2 fuel p s
  | X64 _ false => x64_strlen_bt fuel p s
  end.
