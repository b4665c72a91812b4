(** Model of ClingoPropagatorInit: changes of watches over the steps of an incremental search (/repo/src/clingo.cpp:393-512).

    Simplifications: 64-bit masks are functions from solver ids to bool; an entry of History without bits is as good as none; the watches that
    a solver has for its propagator are a function from literals to bool (Control::addWatch and removeWatch, 138-161); changes are made before the first
    solver of the step is initialised; watches added by the user during search are left out; History is enabled from the beginning. *)
From Coq Require Import List Arith Bool.
From Verif Require Import Base PwSpec.
Import ListNotations.

Inductive act := ARem | AAdd | AFrz.
(** Change (clingo.h:140-149); sId -1 is [None] *)
Record change := Ch { c_lit : lit; c_sid : option nat; c_act : act }.
(** addWatch, removeWatch, freezeLit, 459-482 *)
Definition toChange (o : op) : change := match o with OAdd w l => Ch l w AAdd | ORem w l => Ch l w ARem | OFrz l => Ch l (Some 64) AFrz end.
(** operator<, 396-399: by variable, negative literals first *)
Definition ltc (a b : change) : bool :=
  (fst (c_lit a) <? fst (c_lit b)) || ((fst (c_lit a) =? fst (c_lit b)) && snd (c_lit a) && negb (snd (c_lit b))).
(** solverMask, 400-402: bit [k] *)
Definition mask (c : change) (k : nat) : bool := match c_sid c with None => true | Some i => (63 <? i) || (i =? k) end.
Definition watches := lit -> bool.
Definition setW (W : watches) (l : lit) (b : bool) : watches := fun x => if lit_eqb x l then b else W x.
(** apply, 403-409 *)
Definition apply (W : watches) (c : change) : watches := match c_act c with AAdd => setW W (c_lit c) true | ARem => setW W (c_lit c) false | AFrz => W end.
Definition history := lit -> nat -> bool.
(** History::add, 412-423 *)
Definition histAdd (H : history) (c : change) : history :=
  match c_act c with
  | AAdd => fun l k => if lit_eqb l (c_lit c) then H l k || mask c k else H l k
  | ARem => fun l k => if lit_eqb l (c_lit c) then H l k && negb (mask c k) else H l k
  | AFrz => H
  end.
(** std::stable_sort *)
Fixpoint ins (x : change) (l : list change) : list change := match l with [] => [x] | y :: r => if ltc y x then y :: ins x r else x :: l end.
Definition sort (l : list change) : list change := fold_right ins [] l.
Fixpoint isSorted (l : list change) : bool := match l with x :: r => match r with y :: _ => negb (ltc y x) && isSorted r | [] => true end | [] => true end.
(** prepare, 431-448: literals that are frozen; [m], [f]: addWatch and freeze of the current literal *)
Fixpoint prep (l : list change) (m : nat -> bool) (f : bool) : list lit :=
  match l with
  | [] => []
  | c :: r =>
      let m' := match c_act c with AAdd => fun k => m k || mask c k | ARem => fun k => m k && negb (mask c k) | AFrz => m end in
      let f' := match c_act c with AFrz => true | _ => f end in
      let here := if f' || existsb m' (seq 0 64) then [c_lit c] else [] in
      match r with
      | d :: _ => if lit_eqb (c_lit d) (c_lit c) then prep r m' f' else here ++ prep r (fun _ => false) false
      | [] => here
      end
  end.
Definition prepare (l : list change) : list change * list lit := (sort l, prep (sort l) (fun _ => false) false).
(** The last loop of init, 505-510 *)
Fixpoint applyLoop (W : watches) (l : list change) : watches :=
  match l with
  | [] => W
  | c :: r => match r with d :: _ => if lit_eqb (c_lit d) (c_lit c) then applyLoop W r else applyLoop (apply W c) r | [] => apply W c end
  end.
Definition concerns (sid : nat) (c : change) : bool := match c_sid c with None => true | Some i => i =? sid end.
(** init, 484-512 *)
Definition init (H : history) (changes : list change) (step last sid : nat) (W : watches) : watches :=
  let W := if 1 <? step - last then fun l => H l sid || W l else W in
  let cs := filter (concerns sid) changes in
  applyLoop W (if isSorted cs then cs else sort cs).

(** History, changes, step; per solver the step of its last init (0: new) and its watches; has a solver been initialised in this step? *)
Record pw := Pw { hist : history; changes : list change; step : nat; last : nat -> nat; wat : nat -> watches; ini : bool }.
Definition start : pw := Pw (fun _ _ => false) [] 1 (fun _ => 0) (fun _ _ => false) false.
Definition upN {A} (f : nat -> A) (i : nat) (x : A) : nat -> A := fun k => if k =? i then x else f k.
Definition do_op (s : pw) (o : op) : pw := Pw (hist s) (changes s ++ [toChange o]) (step s) (last s) (wat s) (ini s).
Definition do_prepare (s : pw) : pw := Pw (hist s) (fst (prepare (changes s))) (step s) (last s) (wat s) (ini s).
Definition do_init (s : pw) (sid : nat) : pw :=
  Pw (hist s) (changes s) (step s) (upN (last s) sid (step s)) (upN (wat s) sid (init (hist s) (changes s) (step s) (last s sid) sid (wat s sid))) true.
(** unfreeze, 449-457 *)
Definition do_unfreeze (s : pw) : pw := Pw (fold_left histAdd (changes s) (hist s)) [] (S (step s)) (last s) (wat s) false.
(** A solver is removed; a new one may get its id *)
Definition do_fresh (s : pw) (sid : nat) : pw := Pw (hist s) (changes s) (step s) (upN (last s) sid 0) (upN (wat s) sid (fun _ => false)) (ini s).

(** Executions with the calls of the earlier steps and of the current step; [gaps]: a solver may miss a whole step *)
Inductive reach (gaps : bool) : list op -> list op -> pw -> Prop :=
| R0 : reach gaps [] [] start
| ROp P C s o : reach gaps P C s -> ini s = false -> valid o -> reach gaps P (C ++ [o]) (do_op s o)
| RPrepare P C s : reach gaps P C s -> reach gaps P C (do_prepare s)
| RInit P C s sid : reach gaps P C s -> sid < 64 -> gaps = true \/ last s sid = 0 \/ step s <= S (last s sid) -> reach gaps P C (do_init s sid)
| RUnfreeze P C s : reach gaps P C s -> reach gaps (P ++ C) [] (do_unfreeze s)
| RFresh P C s sid : reach gaps P C s -> reach gaps P C (do_fresh s sid).
