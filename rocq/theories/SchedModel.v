(** Model of the restart/deletion schedules.
    C++ sources: /repo/src/solver_strategies.cpp, /repo/clasp/solver_strategies.h,
    /repo/clasp/util/misc_types.h.  uint32 values are [N] with explicit wrap. *)
From Coq Require Import NArith Bool List.
From Verif Require Import LitModel.
Import ListNotations.
Local Open Scope N_scope.

(** misc_types.h:70-78  [log2(uint32 x)]: five tests and shifts. *)
Definition log2_32 (x0 : N) : N :=
  let '(x, ln) := if N.land x0 4294901760 =? 0 then (x0, 0) else (N.shiftr x0 16, 16) in
  let '(x, ln) := if N.land x 65280 =? 0 then (x, ln) else (N.shiftr x 8, N.lor ln 8) in
  let '(x, ln) := if N.land x 240 =? 0 then (x, ln) else (N.shiftr x 4, N.lor ln 4) in
  let '(x, ln) := if N.land x 12 =? 0 then (x, ln) else (N.shiftr x 2, N.lor ln 2) in
  if N.land x 2 =? 0 then ln else N.lor ln 1.

(** uint32 subtraction *)
Definition sub32 (x y : N) : N := wrap32 (wrap32 x + (2 ^ 32 - wrap32 y)).

(** solver_strategies.cpp:89-95  the loop of [lubyR]; [None] when the fuel runs
    out (the C++ loop has no bound; the theorems show 33 rounds suffice). *)
Fixpoint luby_loop (fuel : nat) (i : N) : option N :=
  match fuel with
  | O => None
  | S f =>
    if N.land i (wrap32 (i + 1)) =? 0 then Some i
    else luby_loop f (sub32 i (sub32 (wrap32 (N.shiftl 1 (log2_32 i))) 1))
  end.
(** solver_strategies.cpp:88-95  [lubyR(idx)] *)
Definition lubyR (idx : N) : option N :=
  match luby_loop 33 (wrap32 (idx + 1)) with
  | Some i => Some (N.shiftr (wrap32 (i + 1)) 1)
  | None => None
  end.

(** solver_strategies.h:68-95.  [grow] only enters [current] and is a parameter
    there. *)
Inductive sched_type := Geometric | Arithmetic | Luby.
Record sched := Sched { s_type : sched_type; s_base : N; s_idx : N; s_len : N }.
Definition is_luby (t : sched_type) : bool := match t with Luby => true | _ => false end.

(** solver_strategies.cpp:105-111  [current()].  The floating-point progressions
    [growR(idx, grow) * base] and [addR(idx, grow) + base] are a parameter
    [real_seq type base idx]; the Luby case is exact. *)
Definition current (real_seq : sched_type -> N -> N -> N) (s : sched) : option N :=
  if s_base s =? 0 then Some (2 ^ 64 - 1)
  else match s_type s with
       | Luby => match lubyR (s_idx s) with Some l => Some (wrap64 (l * s_base s)) | None => None end
       | t => Some (real_seq t (s_base s) (s_idx s))
       end.

(** solver_strategies.cpp:112-118  the state change of [next()] *)
Definition next (s : sched) : sched :=
  let idx := wrap32 (s_idx s + 1) in
  if negb (idx =? s_len s) then Sched (s_type s) (s_base s) idx (s_len s)
  else
    let len := wrap32 (N.shiftl (wrap32 (s_len s + (if idx =? 0 then 0 else 1)))
                                (if is_luby (s_type s) then 1 else 0)) in
    Sched (s_type s) (s_base s) 0 len.

(** solver_strategies.cpp:131-135  the Luby loop of [advanceTo] *)
Fixpoint advance_luby (fuel : nat) (n len : N) : option (N * N) :=
  match fuel with
  | O => None
  | S f => if n <? len then Some (n, len)
           else advance_luby f (sub32 n len) (wrap32 (2 * wrap32 (len + 1)))
  end.

(** solver_strategies.cpp:119-136  [advanceTo(n)].  The double computation of
    [x] and of [x*dLen + (x-1)*x/2] is carried out in exact arithmetic here
    (rounding of doubles is not modelled); [n+1] is the uint32 sum of the code. *)
Definition advanceTo (s : sched) (n : N) : option sched :=
  let len := s_len s in
  if (len =? 0) || (n <? len) then Some (Sched (s_type s) (s_base s) n len)
  else match s_type s with
       | Luby => match advance_luby 33 n len with
                 | Some (i, l) => Some (Sched Luby (s_base s) i l)
                 | None => None
                 end
       | t =>
         let x := (N.sqrt (len * (4 * len - 4) + 8 * wrap32 (n + 1)) + 1 - 2 * len) / 2 in
         Some (Sched t (s_base s) (sub32 n (wrap32 (x * len + (x - 1) * x / 2))) (wrap32 (len + x)))
       end.

(** solver_strategies.cpp:96-101  constructor, Luby case with a limit:
    [len = max(2, (2^ceil(log2 lim) - 1)*2)], the powers and logarithms taken
    exactly. *)
Definition luby_len (lim : N) : N := N.max 2 ((2 ^ N.log2_up lim - 1) * 2).
Definition mkSched (t : sched_type) (base lim : N) : sched :=
  Sched t base 0 (match t with Luby => if lim =? 0 then 0 else luby_len lim | _ => lim end).

(** misc_types.h:81-91  [choose(n,k)] (uint64 arithmetic; [n], [k] uint32). *)
Fixpoint choose_loop (steps : nat) (i n : N) (res : N) : N :=
  match steps with
  | O => res
  | S s => choose_loop s (i + 1) n (wrap64 (res * (n + 1 - i)) / i)
  end.
Definition choose (n k : N) : N :=
  if k =? 0 then 1
  else if n <? k then 0
  else let k' := if n <? wrap32 (2 * k) then n - k else k in
       if k' =? 0 then 1 else choose_loop (N.to_nat (k' - 1)) 2 n n.

(** ** The same branch of [advanceTo] with IEEE binary64 arithmetic
    (solver_strategies.cpp:124-130), using the computable [spec_float] of the
    standard library: round to nearest even, no fused operations. *)
From Coq Require Import ZArith SpecFloat.
Definition D_of (n : N) : spec_float := binary_normalize 53 1024 (Z.of_N n) 0 false.
Definition Dmul := SFmul 53 1024.
Definition Dadd := SFadd 53 1024.
Definition Dsub := SFsub 53 1024.
Definition Ddiv := SFdiv 53 1024.
Definition Dsqrt := SFsqrt 53 1024.
(** conversion double -> uint32 of a finite non-negative value below 2^32;
    anything else is undefined behaviour *)
Definition D_to_u32 (d : spec_float) : option N :=
  match d with
  | S754_zero _ => Some 0
  | S754_finite false m e =>
    let v := match e with
             | Z0 => Z.pos m
             | Zpos p => (Z.pos m * 2 ^ e)%Z
             | Zneg p => (Z.pos m / 2 ^ (Z.pos p))%Z
             end in
    if (v <? 2 ^ 32)%Z then Some (Z.to_N v) else None
  | _ => None
  end.
Definition advance_double (len n : N) : option (N * N) :=
  let dLen := D_of len in
  let root := Dsqrt (Dadd (Dmul dLen (Dsub (Dmul (D_of 4) dLen) (D_of 4)))
                          (Dmul (D_of 8) (D_of (wrap32 (n + 1))))) in
  match D_to_u32 (Dadd (Dsub root (Dmul (D_of 2) dLen)) (D_of 1)) with
  | None => None
  | Some y =>
    let x := y / 2 in
    match D_to_u32 (Dadd (Dmul (D_of x) dLen)
                         (Ddiv (Dmul (Dsub (D_of x) (D_of 1)) (D_of x)) (D_of 2))) with
    | None => None
    | Some o => Some (sub32 n o, wrap32 (len + x))
    end
  end.
