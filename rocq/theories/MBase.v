(* MBase.v: model of the size, workspace, cache buffer and work splitting functions
   of src/include/{matrix,armas,accel}.h, src/base/{matrix,cache}.c, src/workers/gemm.c. *)
From Coq Require Import ZArith Bool List.
Import ListNotations.
Local Open Scope Z_scope.

(* 32-bit signed int: an operation that leaves the range has no defined result *)
Definition i32 (x : Z) : option Z := if (- 2 ^ 31 <=? x) && (x <? 2 ^ 31) then Some x else None.
(* 64-bit unsigned size_t: arithmetic modulo 2^64 *)
Definition u64 (x : Z) : Z := x mod 2 ^ 64.

Definition obind {A B} (x : option A) (f : A -> option B) : option B :=
  match x with Some a => f a | None => None end.

(* ------------------------------------------------------------------ *)
(* sizes *)

(* src/include/matrix.h:161-164 armas_size (non-null argument): the product is computed in int *)
Definition armas_size_c (rows cols : Z) : option Z := i32 (rows * cols).

(* src/base/matrix.c:23-31 *)
Definition CACHELINE : Z := 64.
Definition ALIGNSIZE (n sz : Z) : Z := u64 (n + (CACHELINE / sz - 1)).
Definition ALIGNOFFSET (ptr : Z) : Z :=
  if ptr mod CACHELINE =? 0 then 0 else CACHELINE - ptr mod CACHELINE.

Record alloc : Type := mkalloc {
  a_rows : Z; a_cols : Z; a_step : Z;
  a_data : Z;      (* address returned by calloc, 0 if none *)
  a_bytes : Z;     (* bytes allocated *)
  a_elems : Z      (* address of the first element *)
}.

(* src/base/matrix.c:52-80 armas_init; data = the non-null result of calloc(__nbytes, sz);
   sz = sizeof(DTYPE).  The failure of calloc is not modelled. *)
Definition armas_init (data sz r c : Z) : option alloc :=
  if (r <=? 0) || (c <=? 0) then
    Some (mkalloc (if r <? 0 then 0 else r) (if c <? 0 then 0 else c) 0 0 0 0)
  else
    obind (i32 (r * c)) (fun n =>
      let count := ALIGNSIZE n sz in
      Some (mkalloc r c r data (count * sz) (data + ALIGNOFFSET data))).

(* ------------------------------------------------------------------ *)
(* workspace *)

(* src/include/armas.h:541-545 armas_wbuf_t *)
Record wbuf : Type := mkwbuf { w_buf : Z; w_bytes : Z; w_offset : Z }.

(* src/include/armas.h:600-607 armas_wreserve_bytes; W non-null.  Result: address or None *)
Definition armas_wreserve_bytes (W : wbuf) (nbytes : Z) : option Z * wbuf :=
  if nbytes >? u64 (w_bytes W - w_offset W) then (None, W)
  else (Some (w_buf W + w_offset W), mkwbuf (w_buf W) (w_bytes W) (u64 (w_offset W + nbytes))).

(* src/include/armas.h:611-614 armas_wreserve *)
Definition armas_wreserve (W : wbuf) (count sz : Z) : option Z * wbuf :=
  armas_wreserve_bytes W (u64 (count * sz)).

(* src/include/armas.h:552, 617-621 armas_wreserve_bits *)
Definition armas_wreserve_bits (W : wbuf) (count : Z) : option Z * wbuf :=
  armas_wreserve_bytes W (u64 (count + 7) / 8).

(* src/include/armas.h:625-628 armas_wreset *)
Definition armas_wreset (W : wbuf) : wbuf := mkwbuf (w_buf W) (w_bytes W) 0.

(* src/include/armas.h:639-642 armas_wbytes, 646-649 armas_wpos, 653-656 armas_wptr *)
Definition armas_wbytes (W : wbuf) : Z := u64 (w_bytes W - w_offset W).
Definition armas_wpos (W : wbuf) : Z := w_offset W.
Definition armas_wptr (W : wbuf) : Z := w_buf W + w_offset W.

(* src/include/armas.h:660-664 armas_wsetpos *)
Definition armas_wsetpos (W : wbuf) (p : Z) : wbuf :=
  if p <? w_bytes W then mkwbuf (w_buf W) (w_bytes W) p else W.

(* src/include/armas.h:556-562 armas_walloc; buf = the non-null result of calloc *)
Definition armas_walloc (buf nbytes : Z) : wbuf := mkwbuf buf nbytes 0.

(* ------------------------------------------------------------------ *)
(* cache buffers *)

(* src/include/cache.h:12-20 *)
Definition CLSHIFT : Z := 5.
Definition CACHEMIN : Z := 1024.

(* src/include/armas.h:224-231 armas_cbuf_t *)
Record cbuf : Type := mkcbuf { c_data : Z; c_len : Z; c_cmem : Z; c_l1mem : Z }.

(* src/base/cache.c:44-51 alloc_size; sizes are below 2^63 *)
Definition alloc_size (requested : Z) : Z :=
  Z.shiftl (Z.shiftr (requested + CACHELINE - 1) CLSHIFT) CLSHIFT + CACHELINE - 1.

(* src/base/cache.c:53-61 cache_aligned; result: aligned address and remaining length *)
Definition cache_aligned (ptr len : Z) : Z * Z :=
  let na := CACHELINE - ptr mod CACHELINE in (ptr + na, u64 (len - na)).

(* src/base/cache.c:76-89 armas_cbuf_init; ptr = result of calloc(asize).
   Result: the buffer and the number of bytes allocated *)
Definition armas_cbuf_init (ptr cmem l1mem : Z) : cbuf * Z :=
  let asize := alloc_size cmem in
  let asize := if asize <? CACHEMIN then CACHEMIN else asize in
  let '(data, len) := cache_aligned ptr asize in
  (mkcbuf data len cmem l1mem, asize).

(* src/base/cache.c:120-128 armas_cbuf_make *)
Definition armas_cbuf_make (buf cmem l1mem : Z) : cbuf :=
  let '(data, len) := cache_aligned buf cmem in mkcbuf data len cmem l1mem.

(* src/base/cache.c:444-460 armas_cbuf_create_thread_global, first call: ptr = result of
   calloc(hdr + alloc_size(cmem)), hdr = sizeof(armas_cbuf_t).  Result: buffer, bytes allocated *)
Definition armas_cbuf_thread_global (ptr hdr cmem l1mem : Z) : cbuf * Z :=
  (armas_cbuf_make (ptr + hdr) cmem l1mem, hdr + alloc_size cmem).

(* src/base/cache.c:485-509 armas_cbuf_select, the branch with a large enough workspace *)
Definition armas_cbuf_select_work (W : wbuf) (env_cmem l1mem : Z) : option (cbuf * wbuf) :=
  let ws := armas_wbytes W in
  if ws >=? env_cmem then
    Some (armas_cbuf_make (armas_wptr W) ws l1mem, snd (armas_wreserve W ws 1))
  else None.

(* the blocks of src/include/cache.h:21-35 cache_t that are used: address of each block,
   column stride in items, number of columns of each block *)
Record cache : Type := mkcache {
  Acpy : Z; Bcpy : Z; dC : Z; ab_step : Z; c_step : Z; MB : Z; NB : Z; KB : Z; rb : Z
}.

Definition and_not3 (x : Z) : Z := x - x mod 4.     (* x & ~0x3 *)

(* src/base/cache.c:193-226 armas_cbuf_split2, the block sizes.  The double computations
   a = mb/nb, b = kb/nb, sqrt(b*S/(1+a)), kn/b, nn*a are modelled exactly, without rounding:
   the truncated square root of kb*S/(mb+nb), of kn*nb/kb and of nn*mb/nb. *)
Definition split2_sizes (len mb nb kb p : Z) : Z * Z * Z :=
  let S := len / p in
  if len <=? CACHEMIN then
    let n := if p <? 8 then 8 else 4 in (n, n, n)
  else
    let kn := Z.sqrt (kb * S / (mb + nb)) in
    let clp := CACHELINE / p in
    let kn := if kn >? clp then kn - kn mod clp else kn in
    let nn := kn * nb / kb in
    let mn := nn * mb / nb in
    (and_not3 mn, and_not3 nn, kn).

(* src/base/cache.c:265-295 armas_cache_setup2 *)
Definition armas_cache_setup2 (cb : cbuf) (mb nb kb p : Z) : cache :=
  let '(mn, nn, kn) := split2_sizes (c_len cb) mb nb kb p in
  let rb :=
    if c_l1mem cb >? 0 then
      let r := and_not3 (c_l1mem cb / (kn * p)) in
      let r := if r =? 0 then 4 else r in
      if r >? mn then mn else r
    else mn in
  mkcache (c_data cb) (c_data cb + mn * kn * p) 0
          (if kn <? CACHELINE / p then CACHELINE / p else kn) 0 mn nn kn rb.

(* src/base/cache.c:310-348 armas_cbuf_split3, the block sizes; with b' = max(b, a):
   sqrt(b'*S/(2+a)) = sqrt(max(kb,mb)*S/(2*nb+mb)), kn/b' = kn*nb/max(kb,mb) *)
Definition split3_sizes (len mb nb kb p : Z) : Z * Z * Z :=
  let S := len / p in
  if len <=? CACHEMIN then
    let n := if p <? 8 then 8 else 4 in (n, n, n)
  else
    let kb := Z.max kb mb in
    let kn := Z.sqrt (kb * S / (2 * nb + mb)) in
    let clp := CACHELINE / p in
    let kn := if kn >? clp then kn - kn mod clp else kn in
    let nn := kn * nb / kb in
    let mn := nn * mb / nb in
    (and_not3 mn, and_not3 nn, kn).

(* src/base/cache.c:386-419 armas_cache_setup3 *)
Definition armas_cache_setup3 (cb : cbuf) (mb nb kb p : Z) : cache :=
  let '(mn, nn, kn) := split3_sizes (c_len cb) mb nb kb p in
  let rb :=
    if c_l1mem cb >? 0 then
      let r := and_not3 (c_l1mem cb / (kn * p)) in
      let r := if r =? 0 then 4 else r in
      if r >? mn then mn else r
    else mn in
  let stp := if kn <? CACHELINE / p then CACHELINE / p else kn in
  mkcache (c_data cb) (c_data cb + mn * kn * p) (c_data cb + (mn + nn) * kn * p) stp stp mn nn kn rb.

(* src/base/cache.c:228-259 armas_cache_fixed2; None = refused (-1) *)
Definition armas_cache_fixed2 (cb : cbuf) (mb nb kb p : Z) : option cache :=
  let clp := CACHELINE / p in
  let bytes := u64 ((if kb >? clp then kb else clp) * (mb + nb) * p) in
  if bytes >? c_cmem cb then None
  else
    let kb := if kb >? clp then kb - kb mod clp else kb in
    let kb := if kb <? 4 then 4 else kb in
    let mb := and_not3 mb in
    let nb := and_not3 nb in
    let rb := if mb / 4 <? 4 then 4 else mb / 4 in
    let stp := if kb >? clp then kb else clp in
    Some (mkcache (c_data cb) (c_data cb + mb * stp * p) 0 stp stp mb nb kb rb).

(* src/base/cache.c:354-384 armas_cache_fixed3 *)
Definition armas_cache_fixed3 (cb : cbuf) (mb nb kb p : Z) : option cache :=
  let clp := CACHELINE / p in
  let bytes := u64 ((if kb >? clp then kb else clp) * (mb + 2 * nb) * p) in
  if bytes >? c_cmem cb then None
  else
    let kb := if kb >? clp then kb - kb mod clp else kb in
    let kb := if kb <? 4 then 4 else kb in
    let mb := and_not3 mb in
    let nb := and_not3 nb in
    let rb := if mb / 4 <? 4 then 4 else mb / 4 in
    let stp := if kb >? clp then kb else clp in
    Some (mkcache (c_data cb) (c_data cb + mb * stp * p) (c_data cb + (mb + nb) * stp * p) stp stp mb nb kb rb).

(* ------------------------------------------------------------------ *)
(* work splitting *)

(* src/include/accel.h:97-103 armas_ac_block_index: n*ntotal is computed in int *)
Definition armas_ac_block_index (n nblocks ntotal : Z) : option Z :=
  if n =? nblocks then Some ntotal
  else obind (i32 (n * ntotal)) (fun v =>
       if nblocks =? 0 then None
       else Some (Z.quot v nblocks - Z.land (Z.quot v nblocks) 3)).

(* one block of the result: src/include/accel.h:83-92 armas_ac_block *)
Record block : Type := mkblock { b_row : Z; b_column : Z; b_nrows : Z; b_ncolumns : Z }.

(* src/workers/gemm.c:90-112 armas_ac_define_block *)
Definition armas_ac_define_block (index nblk major minor : Z) (colwise : bool) : option block :=
  obind (armas_ac_block_index index nblk major) (fun s =>
  obind (armas_ac_block_index (index + 1) nblk major) (fun e =>
  Some (if colwise then mkblock 0 s minor (e - s) else mkblock s 0 (e - s) minor))).

Fixpoint otraverse {A B} (f : A -> option B) (l : list A) : option (list B) :=
  match l with
  | [] => Some []
  | a :: l' => obind (f a) (fun b => obind (otraverse f l') (fun bs => Some (b :: bs)))
  end.

Definition zrange (n : Z) : list Z := map Z.of_nat (seq 0 (Z.to_nat n)).

(* src/workers/gemm.c:114-138 schedule_blocks: the blocks of the ntask tasks *)
Definition schedule_blocks (rows cols ntask : Z) : option (list block) :=
  let colwise := cols >? rows in
  let minor := if colwise then rows else cols in
  let major := if colwise then cols else rows in
  otraverse (fun k => armas_ac_define_block k ntask major minor colwise) (zrange ntask).

(* src/workers/gemm.c:140-178 schedule_tiles *)
Definition schedule_tiles (rows cols rtiles ctiles : Z) : option (list block) :=
  obind (otraverse (fun j =>
    obind (armas_ac_block_index j ctiles cols) (fun cstart =>
    obind (armas_ac_block_index (j + 1) ctiles cols) (fun cend =>
    otraverse (fun i =>
      obind (armas_ac_block_index i rtiles rows) (fun rstart =>
      obind (armas_ac_block_index (i + 1) rtiles rows) (fun rend =>
      Some (mkblock rstart cstart (rend - rstart) (cend - cstart))))) (zrange rtiles))))
    (zrange ctiles)) (fun l => Some (concat l)).

(* src/threaded/gemm.c:93-140 threaded_mult_recursive: the blocks computed from thread on;
   fuel bounds the recursion, None = fuel exhausted or undefined *)
Fixpoint threaded_blocks (fuel : nat) (rows cols thread nthreads : Z) : option (list block) :=
  match fuel with
  | O => None
  | S fuel' =>
    obind (if rows <=? cols then
             obind (armas_ac_block_index thread nthreads cols) (fun s =>
             obind (armas_ac_block_index (thread + 1) nthreads cols) (fun e =>
             Some (mkblock 0 s rows (e - s))))
           else
             obind (armas_ac_block_index thread nthreads rows) (fun s =>
             obind (armas_ac_block_index (thread + 1) nthreads rows) (fun e =>
             Some (mkblock s 0 (e - s) cols)))) (fun b =>
    if thread + 1 =? nthreads then Some [b]
    else obind (threaded_blocks fuel' rows cols (thread + 1) nthreads) (fun bs => Some (b :: bs)))
  end.

(* src/workers/workers.h:30-38 worker_tiles: number of tile rows and columns *)
Definition worker_tiles (M N wb : Z) : Z * Z :=
  let qr := if Z.rem M wb >? wb / 8 then 1 else 0 in
  let qc := if Z.rem N wb >? wb / 8 then 1 else 0 in
  (if M <? wb then 1 else Z.quot M wb + qr, if N <? wb then 1 else Z.quot N wb + qc).
