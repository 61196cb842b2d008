(** Ranges.v -- model of extent_range.hpp, extent_gen.hpp, index_range.hpp,
    index_gen.hpp and range_list.hpp *)

From Verif Require Import Base.

(** * extent_range.hpp *)

(** extent_range.hpp:22-42 class extent_range (a pair of indices) *)
Record extent_range := ERange { er_start : Z; er_finish : Z }.

(** extent_range.hpp:32-33 extent_range(index finish) *)
Definition extent_range_to (finish : Z) : extent_range := ERange 0 finish.
(** extent_range.hpp:35 extent_range() *)
Definition extent_range_default : extent_range := ERange 0 0.
(** extent_range.hpp:41 size(): index subtraction, then conversion to size_type *)
Definition er_size (r : extent_range) : outcome Z :=
  d <- ssub (er_finish r) (er_start r) ;; Ok (to_size d).

(** * extent_gen.hpp *)

(** extent_gen.hpp:27-68 extent_gen<NumRanges>.  [eg_num] is the template
    parameter; [eg_ranges] is [ranges_], which has max(NumRanges,1) entries
    (range_list.hpp:29-62: the zero case uses a one-element array). *)
Record extent_gen := EGen { eg_num : nat; eg_ranges : list extent_range }.

(** extent_gen.hpp:43,65-67 extent_gen<0>() : default entries *)
Definition extents : extent_gen := EGen 0 [extent_range_default].

(** extent_gen.hpp:46-51 extent_gen(const extent_gen<NumRanges-1>&, range):
    default-initialise NumRanges entries, copy the old ones, set the last. *)
Definition extent_gen_extend (g : extent_gen) (r : extent_range)
  : outcome extent_gen :=
  let fresh := repeat extent_range_default (S (eg_num g)) in
  c <- copy_into fresh (eg_ranges g) ;;
  l <- set_last r c ;;
  Ok (EGen (S (eg_num g)) l).

(** extent_gen.hpp:53-57 operator[](const range&) *)
Definition eg_at_range (g : extent_gen) (r : extent_range) : outcome extent_gen :=
  extent_gen_extend g r.
(** extent_gen.hpp:59-63 operator[](index): range(0,idx) *)
Definition eg_at_index (g : extent_gen) (idx : Z) : outcome extent_gen :=
  extent_gen_extend g (ERange 0 idx).

(** * index_range.hpp *)

(** index_range.hpp:32-153 class index_range; members at 151-152 *)
Record index_range := IRange {
  ir_start : Z; ir_finish : Z; ir_stride : Z; ir_degenerate : bool
}.

(** index_range.hpp:39-40 from_start() *)
Definition from_start : Z := idx_min.
(** index_range.hpp:42-43 to_end() *)
Definition to_end : Z := idx_max.

(** index_range.hpp:47-53 index_range() *)
Definition ir_default : index_range := IRange from_start to_end 1 false.
(** index_range.hpp:55-61 index_range(index pos) *)
Definition ir_pos (pos : Z) : outcome index_range :=
  f <- sadd pos 1 ;; Ok (IRange pos f 1 true).
(** index_range.hpp:63-66 index_range(start, finish, stride=1) *)
Definition ir_make (start finish stride : Z) : index_range :=
  IRange start finish stride false.
(** index_range.hpp:70-74 start(index) *)
Definition ir_set_start (r : index_range) (s : Z) : index_range :=
  IRange s (ir_finish r) (ir_stride r) false.
(** index_range.hpp:76-80 finish(index) *)
Definition ir_set_finish (r : index_range) (f : Z) : index_range :=
  IRange (ir_start r) f (ir_stride r) false.
(** index_range.hpp:82 stride(index) *)
Definition ir_set_stride (r : index_range) (s : Z) : index_range :=
  IRange (ir_start r) (ir_finish r) s (ir_degenerate r).
(** index_range.hpp:89-94 get_start(low) *)
Definition ir_get_start (r : index_range) (low : Z) : Z :=
  if ir_start r =? from_start then low else ir_start r.
(** index_range.hpp:101-106 get_finish(high) *)
Definition ir_get_finish (r : index_range) (high : Z) : Z :=
  if ir_finish r =? to_end then high else ir_finish r.
(** index_range.hpp:110-114 size(idx): the conditional expression has type
    index and is converted to size_type *)
Definition ir_size (r : index_range) (idx : Z) : outcome Z :=
  if (ir_start r =? from_start) || (ir_finish r =? to_end)
  then Ok (to_size idx)
  else d <- ssub (ir_finish r) (ir_start r) ;;
       q <- sdiv d (ir_stride r) ;;
       Ok (to_size q).
(** index_range.hpp:116-121 set_index_range(start, finish, stride=1):
    note that degenerate_ is left alone *)
Definition ir_set_index_range (r : index_range) (start finish stride : Z)
  : index_range := IRange start finish stride (ir_degenerate r).
(** index_range.hpp:123-124 all() *)
Definition ir_all : index_range := ir_make from_start to_end 1.
(** index_range.hpp:128-131 operator-(shift) *)
Definition ir_minus (r : index_range) (shift : Z) : outcome index_range :=
  s <- ssub (ir_start r) shift ;;
  f <- ssub (ir_finish r) shift ;;
  Ok (ir_make s f (ir_stride r)).
(** index_range.hpp:133-136 operator+(shift) *)
Definition ir_plus (r : index_range) (shift : Z) : outcome index_range :=
  s <- sadd (ir_start r) shift ;;
  f <- sadd (ir_finish r) shift ;;
  Ok (ir_make s f (ir_stride r)).
(** index_range.hpp:138-146 operator[](unsigned) and operator()(unsigned);
    [i] is an unsigned 32-bit value, converted to the 64-bit index type *)
Definition ir_nth (r : index_range) (i : Z) : outcome Z :=
  m <- smul i (ir_stride r) ;; sadd (ir_start r) m.

(** index_range.hpp:159-164 operator<=(s, r): left closed *)
Definition ir_le_left (s : Z) (r : index_range) : index_range :=
  ir_make s (ir_finish r) (ir_stride r).
(** index_range.hpp:167-172 operator<(s, r): left open *)
Definition ir_lt_left (s : Z) (r : index_range) : outcome index_range :=
  s1 <- sadd s 1 ;; Ok (ir_make s1 (ir_finish r) (ir_stride r)).
(** index_range.hpp:175-180 operator<(r, f): right open *)
Definition ir_lt_right (r : index_range) (f : Z) : index_range :=
  ir_make (ir_start r) f (ir_stride r).
(** index_range.hpp:183-188 operator<=(r, f): right closed *)
Definition ir_le_right (r : index_range) (f : Z) : outcome index_range :=
  f1 <- sadd f 1 ;; Ok (ir_make (ir_start r) f1 (ir_stride r)).

(** * index_gen.hpp *)

(** index_gen.hpp:28-74 index_gen<NumRanges,NumDims>; template parameters are
    [ig_num] and [ig_dims]; [ig_ranges] is [ranges_] (one dummy entry when
    NumRanges = 0, range_list.hpp:29-62) *)
Record index_gen := IGen {
  ig_num : nat; ig_dims : nat; ig_ranges : list index_range
}.

(** index_gen.hpp:43,71-73 index_gen<0,0>() *)
Definition indices : index_gen := IGen 0 0 [ir_default].

(** shared body of the two operator[] (index_gen.hpp:56-59 and 65-68) *)
Definition index_gen_extend (g : index_gen) (dims : nat) (r : index_range)
  : outcome index_gen :=
  let fresh := repeat ir_default (S (ig_num g)) in
  c <- copy_into fresh (ig_ranges g) ;;
  l <- set_last r c ;;
  Ok (IGen (S (ig_num g)) dims l).

(** index_gen.hpp:53-60 operator[](const range&) : NumDims + 1 *)
Definition ig_at_range (g : index_gen) (r : index_range) : outcome index_gen :=
  index_gen_extend g (S (ig_dims g)) r.
(** index_gen.hpp:62-69 operator[](index) : NumDims unchanged, range(idx) *)
Definition ig_at_index (g : index_gen) (idx : Z) : outcome index_gen :=
  r <- ir_pos idx ;; index_gen_extend g (ig_dims g) r.
