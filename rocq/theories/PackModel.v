(** Models of the packed words of the solver: reasons, constraint info, value
    preferences.  C++ sources: /repo/clasp/constraint.h, /repo/clasp/solver_types.h.
    Words are [N]; [x & ~m] is [N.ldiff x m]. *)
From Coq Require Import NArith ZArith Bool List.
From Verif Require Import LitModel.
Import ListNotations.
Local Open Scope N_scope.

(** * Antecedent (constraint.h:420-525) *)

(** constraint.h:422  [enum Type { Generic = 0, Ternary = 1, Binary = 2}] *)
Definition tGeneric : N := 0.
Definition tTernary : N := 1.
Definition tBinary : N := 2.

(** constraint.h:427 *)
Definition anteNull : N := 0.
(** constraint.h:433-437  [(((uint64)p.id()) << 33) + Binary] *)
Definition anteBin (p : N) : N := wrap64 (wrap64 (N.shiftl (lid p) 33) + tBinary).
(** constraint.h:443-448
    [(((uint64)p.id()) << 33) + (((uint64)q.id()) << 2) + Ternary] *)
Definition anteTern (p q : N) : N :=
  wrap64 (wrap64 (wrap64 (N.shiftl (lid p) 33) + wrap64 (N.shiftl (lid q) 2)) + tTernary).
(** constraint.h:454-457  the pointer value itself (64-bit build) *)
Definition anteCon (ptr : N) : N := ptr.
(** constraint.h:460 *)
Definition anteIsNull (d : N) : bool := d =? 0.
(** constraint.h:462  [data_ & 3] *)
Definition anteType (d : N) : N := N.land d 3.
(** constraint.h:470-473 *)
Definition anteConstraint (d : N) : N := d.
(** constraint.h:479-482  [fromId(static_cast<uint32>(data_ >> 33))] *)
Definition anteFirst (d : N) : N := fromId (wrap32 (N.shiftr d 33)).
(** constraint.h:488-491  [fromId( static_cast<uint32>(data_>>1) >> 1 )] *)
Definition anteSecond (d : N) : N := fromId (N.shiftr (wrap32 (N.shiftr d 1)) 1).
(** constraint.h:497-506  [reason]: the literals of a short reason; [None] when
    the work is delegated to the constraint object. *)
Definition anteReason (d : N) : option (list N) :=
  if anteType d =? tGeneric then None
  else Some (anteFirst d :: (if anteType d =? tTernary then [anteSecond d] else [])).

(** * ConstraintScore / ConstraintInfo (constraint.h:527-583) *)

Definition LBD_MAX : N := 127.
Definition ACT_MAX : N := 2 ^ 20 - 1.
Definition LBD_SHIFT : N := 20.
Definition BMP_BIT : N := 27.
Definition TYPE_SHIFT : N := 28.
Definition AUX_BIT : N := 30.
Definition TAG_BIT : N := 31.
Definition LBD_MASK : N := N.shiftl LBD_MAX LBD_SHIFT.
Definition BITS_MASK : N := 2 ^ 28 - 1.
Definition TYPE_MASK : N := N.shiftl 3 TYPE_SHIFT.

(** misc_types.h:51-66 *)
Definition bit_mask (n : N) : N := wrap32 (N.shiftl 1 n).
Definition test_bit (x n : N) : bool := negb (N.land x (bit_mask n) =? 0).
Definition store_clear_bit (x n : N) : N := N.ldiff x (bit_mask n).
Definition store_toggle_bit (x n : N) : N := N.lxor x (bit_mask n).

(** constraint.h:532-536  [reset(act, lbd)] *)
Definition sc_reset (rep act lbd : N) : N :=
  N.lor (N.lor (N.ldiff rep BITS_MASK) (wrap32 (N.shiftl (N.min lbd LBD_MAX) LBD_SHIFT)))
        (N.min act ACT_MAX).
(** constraint.h:537 *)
Definition sc_activity (rep : N) : N := N.land rep ACT_MAX.
(** constraint.h:539 *)
Definition sc_hasLbd (rep : N) : bool := negb (N.land rep LBD_MASK =? 0).
(** constraint.h:538 *)
Definition sc_lbd (rep : N) : N :=
  if sc_hasLbd rep then N.shiftr (N.land rep LBD_MASK) LBD_SHIFT else LBD_MAX.
(** constraint.h:540 *)
Definition sc_bumped (rep : N) : bool := test_bit rep BMP_BIT.
(** constraint.h:541  [if (activity() < ACT_MAX) ++rep] *)
Definition sc_bumpActivity (rep : N) : N :=
  if sc_activity rep <? ACT_MAX then wrap32 (rep + 1) else rep.
(** constraint.h:542 *)
Definition sc_bumpLbd (rep x : N) : N :=
  if x <? sc_lbd rep
  then N.lor (N.ldiff rep LBD_MASK) (N.lor (wrap32 (N.shiftl x LBD_SHIFT)) (bit_mask BMP_BIT))
  else rep.
(** constraint.h:543 *)
Definition sc_clearBumped (rep : N) : N := store_clear_bit rep BMP_BIT.
(** constraint.h:544 *)
Definition sc_reduce (rep : N) : N :=
  let r := sc_clearBumped rep in
  let a := sc_activity r in
  if a =? 0 then r else N.lor (N.ldiff r ACT_MAX) (N.shiftr a 1).
(** constraint.h:545  [assign(Score o)] *)
Definition sc_assign (rep o : N) : N := N.lor (N.ldiff rep BITS_MASK) (N.land o BITS_MASK).
(** constraint.h:548-551 *)
Definition makeScore (act lbd : N) : N := sc_reset 0 act lbd.

(** constraint.h:558-561  constructor: [rep = uint32(t) << TYPE_SHIFT] *)
Definition ci_init (t : N) : N := wrap32 (N.shiftl t TYPE_SHIFT).
(** constraint.h:564 *)
Definition ci_type (rep : N) : N := N.shiftr (N.land rep TYPE_MASK) TYPE_SHIFT.
(** constraint.h:565 *)
Definition ci_tagged (rep : N) : bool := test_bit rep TAG_BIT.
(** constraint.h:566 *)
Definition ci_aux (rep : N) : bool := ci_tagged rep || test_bit rep AUX_BIT.
(** constraint.h:567 *)
Definition ci_learnt (rep : N) : bool := negb (ci_type rep =? 0).
(** constraint.h:571-576 *)
Definition ci_setType (rep t : N) : N :=
  N.lor (N.ldiff rep TYPE_MASK) (wrap32 (N.shiftl t TYPE_SHIFT)).
Definition ci_setScore (rep sc : N) : N := sc_assign rep sc.
Definition ci_setActivity (rep a : N) : N := sc_assign rep (makeScore a (sc_lbd rep)).
Definition ci_setLbd (rep l : N) : N := sc_assign rep (makeScore (sc_activity rep) l).
Definition ci_setTagged (rep : N) (b : bool) : N :=
  if Bool.eqb (test_bit rep TAG_BIT) b then rep else store_toggle_bit rep TAG_BIT.
Definition ci_setAux (rep : N) (b : bool) : N :=
  if Bool.eqb (test_bit rep AUX_BIT) b then rep else store_toggle_bit rep AUX_BIT.

(** One update of a constraint-info word, as offered by the two classes. *)
Inductive info_op :=
| SetType (t : N)
| SetActivity (a : N)
| SetLbd (l : N)
| SetTagged (b : bool)
| SetAux (b : bool)
| BumpActivity
| BumpLbd (x : N)
| ReduceScore
| ClearBumped
| ResetScore (a l : N).

Definition info_step (rep : N) (o : info_op) : N :=
  match o with
  | SetType t => ci_setType rep t
  | SetActivity a => ci_setActivity rep a
  | SetLbd l => ci_setLbd rep l
  | SetTagged b => ci_setTagged rep b
  | SetAux b => ci_setAux rep b
  | BumpActivity => sc_bumpActivity rep
  | BumpLbd x => sc_bumpLbd rep x
  | ReduceScore => sc_reduce rep
  | ClearBumped => sc_clearBumped rep
  | ResetScore a l => sc_reset rep a l
  end.

Definition info_run (t : N) (ops : list info_op) : N := fold_left info_step ops (ci_init t).

(** * ValueSet (solver_types.h:468-479) *)

(** [enum Value { user_value = 0x03u, saved_value = 0x0Cu, pref_value = 0x30u,
    def_value = 0xC0u }] *)
Inductive value_kind := UserValue | SavedValue | PrefValue | DefValue.
Definition kind_mask (k : value_kind) : N :=
  match k with UserValue => 3 | SavedValue => 12 | PrefValue => 48 | DefValue => 192 end.
Definition wrap8 (x : N) : N := x mod 256.
(** misc_types.h:68  [x & (-x)] on uint8 *)
Definition right_most_bit8 (x : N) : N := N.land x (wrap8 (256 - wrap8 x)).
(** solver_types.h:471  [(right_most_bit(rep) & 0xAAu) != 0] *)
Definition vs_sign (rep : N) : bool := negb (N.land (right_most_bit8 rep) 170 =? 0).
(** solver_types.h:472 *)
Definition vs_empty (rep : N) : bool := rep =? 0.
(** solver_types.h:473 *)
Definition vs_has (rep : N) (k : value_kind) : bool := negb (N.land rep (kind_mask k) =? 0).
(** solver_types.h:475 *)
Definition vs_get (rep : N) (k : value_kind) : N :=
  wrap8 (N.land rep (kind_mask k) / right_most_bit8 (kind_mask k)).
(** solver_types.h:476 *)
Definition vs_set (rep : N) (k : value_kind) (to : N) : N :=
  wrap8 (N.lor (N.ldiff rep (kind_mask k)) (to * right_most_bit8 (kind_mask k))).
(** solver_types.h:477 *)
Definition vs_save (rep x : N) : N :=
  wrap8 (N.lor (N.ldiff rep (kind_mask SavedValue)) (N.shiftl x 2)).

Inductive pref_op := PSet (k : value_kind) (v : N) | PSave (v : N).
Definition pref_step (rep : N) (o : pref_op) : N :=
  match o with PSet k v => vs_set rep k v | PSave v => vs_save rep v end.
Definition pref_run (ops : list pref_op) : N := fold_left pref_step ops 0.
