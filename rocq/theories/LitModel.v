(** Machine-level model of [Clasp::Literal] and of the integer conversions.
    C++ source: /repo/clasp/literal.h.

    A [uint32] is an [N]; every operation whose C++ counterpart can exceed
    32 bits is followed by an explicit reduction [wrap32].  A [Literal] object
    is its 32-bit word [rep_]. *)
From Coq Require Import NArith ZArith Bool.
Local Open Scope N_scope.

(** uint32 arithmetic is modulo 2^32. *)
Definition wrap32 (x : N) : N := x mod 2 ^ 32.
Definition wrap64 (x : N) : N := x mod 2 ^ 64.

(** literal.h:48  [const Var varMax = (Var(1) << 30)] *)
Definition varMax : N := 2 ^ 30.
(** literal.h:54  [const uint32 litIdMax = (Var(1) << 31)] *)
Definition litIdMax : N := 2 ^ 31.
(** literal.h:78-79  [sign_bit = 2u], [flag_bit = 1u] *)
Definition sign_bit : N := 2.
Definition flag_bit : N := 1.

Definition b2n (b : bool) : N := if b then 1 else 0.

(** literal.h:90-92  [Literal(Var var, bool sign)
    : rep_( (var<<sign_bit) + (uint32(sign)<<flag_bit) )] *)
Definition mkLit (v : N) (s : bool) : N :=
  wrap32 (wrap32 (N.shiftl v sign_bit) + wrap32 (N.shiftl (b2n s) flag_bit)).

(** literal.h:95  [rep_ >> sign_bit] *)
Definition lvar (p : N) : N := N.shiftr p sign_bit.
(** literal.h:101  [(rep_ & sign_bit) != 0] *)
Definition lsign (p : N) : bool := negb (N.land p sign_bit =? 0).
(** literal.h:107  [rep_ >> flag_bit] *)
Definition lid (p : N) : N := N.shiftr p flag_bit.
(** literal.h:114-117  [fromId(id)]: [Literal(id<<flag_bit)] *)
Definition fromId (i : N) : N := wrap32 (N.shiftl i flag_bit).
(** literal.h:124  [rep_ |= flag_bit] *)
Definition lflag (p : N) : N := N.lor p flag_bit.
(** literal.h:127  [rep_ &= ~flag_bit]; [x & ~m] is [N.ldiff x m]. *)
Definition lunflag (p : N) : N := N.ldiff p flag_bit.
(** literal.h:130 *)
Definition lflagged (p : N) : bool := negb (N.land p flag_bit =? 0).
(** literal.h:137-139  [(rep_ ^ sign_bit) & ~flag_bit] *)
Definition lnot (p : N) : N := N.ldiff (N.lxor p sign_bit) flag_bit.
(** literal.h:145-147  [operator==] compares ids *)
Definition leq (p q : N) : bool := lid p =? lid q.
(** literal.h:149-151  [operator<] compares ids *)
Definition llt (p q : N) : bool := lid p <? lid q.
(** literal.h:156  [operator^(Literal, bool)]: [fromId(lhs.id() ^ uint32(sign))] *)
Definition lxorSign (p : N) (s : bool) : N := fromId (N.lxor (lid p) (b2n s)).
(** literal.h:160,162 *)
Definition negLit (v : N) : N := mkLit v true.
Definition posLit (v : N) : N := mkLit v false.

(** int32 range check; signed overflow is undefined behaviour, modelled by
    [None]. *)
Definition int32 (z : Z) : option Z :=
  if ((- 2 ^ 31 <=? z) && (z <? 2 ^ 31))%Z then Some z else None.

(** literal.h:164  [toLit(int32 p)]:
    [p < 0 ? negLit(static_cast<Var>(-p)) : posLit(static_cast<Var>(p))].
    [None]: the negation overflows or the constructor's assertion
    [var < varMax] fails. *)
Definition toLit (p : Z) : option N :=
  if (p <? 0)%Z
  then match int32 (- p) with
       | Some m => if Z.to_N m <? varMax then Some (negLit (Z.to_N m)) else None
       | None => None
       end
  else if Z.to_N p <? varMax then Some (posLit (Z.to_N p)) else None.

(** literal.h:166  [toInt(Literal p)]:
    [p.sign() ? -static_cast<int32>(p.var()) : static_cast<int32>(p.var())]. *)
Definition toInt (p : N) : option Z :=
  match int32 (Z.of_N (lvar p)) with
  | Some v => if lsign p then int32 (- v) else Some v
  | None => None
  end.

(** literal.h:179  [encodeLit]: [!x.sign() ? int32(x.var()+1) : -int32(x.var()+1)] *)
Definition encodeLit (p : N) : option Z :=
  match int32 (Z.of_N (wrap32 (lvar p + 1))) with
  | Some v => if lsign p then int32 (- v) else Some v
  | None => None
  end.
(** literal.h:180  [decodeVar(int32 x)]: [static_cast<Var>(x >= 0 ? x : -x) - 1];
    the subtraction is unsigned, hence modulo 2^32. *)
Definition decodeVar (x : Z) : option N :=
  match (if (0 <=? x)%Z then Some x else int32 (- x)) with
  | Some a => Some (wrap32 (Z.to_N a + (2 ^ 32 - 1)))
  | None => None
  end.
(** literal.h:181  [decodeLit(int32 x)]: [Literal(decodeVar(x), x < 0)] *)
Definition decodeLit (x : Z) : option N :=
  match decodeVar x with
  | Some v => if v <? varMax then Some (mkLit v (x <? 0)%Z) else None
  | None => None
  end.

(** literal.h:213-215 *)
Definition value_free : N := 0.
Definition value_true : N := 1.
Definition value_false : N := 2.
(** literal.h:226  [1 + lit.sign()] *)
Definition trueValue (p : N) : N := 1 + b2n (lsign p).
(** literal.h:236  [1 + !lit.sign()] *)
Definition falseValue (p : N) : N := 1 + b2n (negb (lsign p)).
(** literal.h:244  [v != value_true] *)
Definition valSign (v : N) : bool := negb (v =? value_true).
