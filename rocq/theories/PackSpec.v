(** What a user expects of constraint-info words and value preferences: records
    with independent fields.  Nothing here refers to bit positions. *)
From Coq Require Import NArith Bool List.
From Verif Require Import PackModel.
Import ListNotations.
Local Open Scope N_scope.

(** Observable attributes of a learnt nogood. *)
Record info := Info {
  i_activity : N;   (** saturates at 2^20-1 *)
  i_lbd      : N;   (** saturates at 127; 127 also stands for "unknown" *)
  i_bumped   : bool;
  i_type     : N;
  i_auxflag  : bool;
  i_tagged   : bool
}.

Definition spec_lbd (l : N) : N := if l =? 0 then 127 else N.min l 127.

(** Each update touches the attributes it names only.  Re-setting activity or
    lbd starts a fresh score, hence also clears the "bumped" mark. *)
Definition info_spec_step (i : info) (o : info_op) : info :=
  match o with
  | SetType t => Info (i_activity i) (i_lbd i) (i_bumped i) t (i_auxflag i) (i_tagged i)
  | SetActivity a => Info (N.min a (2 ^ 20 - 1)) (i_lbd i) false (i_type i) (i_auxflag i) (i_tagged i)
  | SetLbd l => Info (i_activity i) (spec_lbd l) false (i_type i) (i_auxflag i) (i_tagged i)
  | SetTagged b => Info (i_activity i) (i_lbd i) (i_bumped i) (i_type i) (i_auxflag i) b
  | SetAux b => Info (i_activity i) (i_lbd i) (i_bumped i) (i_type i) b (i_tagged i)
  | BumpActivity => Info (N.min (i_activity i + 1) (2 ^ 20 - 1)) (i_lbd i) (i_bumped i) (i_type i) (i_auxflag i) (i_tagged i)
  | BumpLbd x => if x <? i_lbd i
                 then Info (i_activity i) (spec_lbd x) true (i_type i) (i_auxflag i) (i_tagged i)
                 else i
  | ReduceScore => Info (i_activity i / 2) (i_lbd i) false (i_type i) (i_auxflag i) (i_tagged i)
  | ClearBumped => Info (i_activity i) (i_lbd i) false (i_type i) (i_auxflag i) (i_tagged i)
  | ResetScore a l => Info (N.min a (2 ^ 20 - 1)) (spec_lbd l) false (i_type i) (i_auxflag i) (i_tagged i)
  end.

Definition info_spec_run (t : N) (ops : list info_op) : info :=
  fold_left info_spec_step ops (Info 0 127 false t false false).

(** A type argument is one of the four constraint types. *)
Definition op_ok (o : info_op) : Prop := match o with SetType t => t < 4 | _ => True end.

(** ** Value preferences *)
Record prefs := Prefs { p_user : N; p_saved : N; p_pref : N; p_def : N }.
Definition pref_get (p : prefs) (k : value_kind) : N :=
  match k with UserValue => p_user p | SavedValue => p_saved p | PrefValue => p_pref p | DefValue => p_def p end.
Definition pref_spec_step (p : prefs) (o : pref_op) : prefs :=
  match o with
  | PSet UserValue v => Prefs v (p_saved p) (p_pref p) (p_def p)
  | PSet SavedValue v => Prefs (p_user p) v (p_pref p) (p_def p)
  | PSet PrefValue v => Prefs (p_user p) (p_saved p) v (p_def p)
  | PSet DefValue v => Prefs (p_user p) (p_saved p) (p_pref p) v
  | PSave v => Prefs (p_user p) v (p_pref p) (p_def p)
  end.
Definition pref_spec_run (ops : list pref_op) : prefs :=
  fold_left pref_spec_step ops (Prefs 0 0 0 0).
(** The value that decides the sign: the first one set in the hierarchy
    user > saved > preferred > default; 0 if none is set. *)
Definition pref_deciding (p : prefs) : N :=
  if negb (p_user p =? 0) then p_user p
  else if negb (p_saved p =? 0) then p_saved p
  else if negb (p_pref p =? 0) then p_pref p
  else p_def p.
(** A stored value is free (0), true (1) or false (2). *)
Definition pref_op_ok (o : pref_op) : Prop :=
  match o with PSet _ v => v < 3 | PSave v => v < 3 end.
