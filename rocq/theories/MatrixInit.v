(** * Model of programs that use include/geolib/matrix.h, with uninitialised storage
    The default constructors Vector3(), Matrix3x3() and Transform() (matrix.h:20, :91, :169) leave their arrays
    uninitialised.  A program is a list of calls on numbered variables; what a default constructor leaves behind is read
    from an oracle (step, element).  [cells] runs the same program on scalars that may be uninitialised. *)
From Coq Require Import ZArith List Bool.
From Verif Require Import Num Outcome Matrix IntTypes.
Import ListNotations.

(** cos and sin of an uninitialised value are uninitialised *)
#[global] Instance TrigCell {T} {TR : Trig T} : Trig (cell T) := { nsin := lift1 nsin; ncos := lift1 ncos; natan2 := lift2 natan2; npi := Val npi }.

(** scalar arguments: literals and what the accessors of a vector return, matrix.h:31-37, :43-45, :55 *)
Inductive sarg (T : Type) := ALit (x : T) | AGet (v : nat) (k : nat) | ALen (v : nat) | ALen2 (v : nat) | ADot (v w : nat).
Arguments ALit {T}. Arguments AGet {T}. Arguments ALen {T}. Arguments ALen2 {T}. Arguments ADot {T}.
(** calls; [d] is the variable that is constructed or changed *)
Inductive mcall (T : Type) :=
| VDef (d : nat) | VMake (d : nat) (x y z : sarg T) | VSet (d k : nat) (x : sarg T) | VNorm (d : nat)
| VAdd (d a b : nat) | VSub (d a b : nat) | VScale (d a : nat) (f : sarg T) | VDiv (d a : nat) (f : sarg T) | VOpp (d a : nat)
| VMulM (d m v : nat) | VApply (d t v : nat) | VRow (d m k : nat) | VOrigin (d t : nat)
| MDef (d : nat) | MMake (d : nat) (l : list (sarg T)) | MRpy (d : nat) (r p y : sarg T) | MMul (d a b : nat) | MBasis (d t : nat)
| TDef (d : nat) | TMake (d : nat) (x y z r p w : sarg T) | TOf (d m v : nat) | TRpy (d : nat) (r p y : sarg T) | TMul (d a b : nat) | TInv (d a : nat).
Arguments VDef {T}. Arguments VMake {T}. Arguments VSet {T}. Arguments VNorm {T}. Arguments VAdd {T}. Arguments VSub {T}. Arguments VScale {T}. Arguments VDiv {T}.
Arguments VOpp {T}. Arguments VMulM {T}. Arguments VApply {T}. Arguments VRow {T}. Arguments VOrigin {T}. Arguments MDef {T}. Arguments MMake {T}. Arguments MRpy {T}.
Arguments MMul {T}. Arguments MBasis {T}. Arguments TDef {T}. Arguments TMake {T}. Arguments TOf {T}. Arguments TRpy {T}. Arguments TMul {T}. Arguments TInv {T}.

Section Run.
  Context {T : Type} {NT : Num T} {TR : Trig T}.
  (** the variables *)
  Record mst := MSt { st_v : nat -> list T; st_m : nat -> list T; st_t : nat -> atr T }.
  Definition upd {A} (f : nat -> A) (d : nat) (x : A) (i : nat) : A := if Nat.eqb i d then x else f i.
  Definition set_v (s : mst) d x := MSt (upd (st_v s) d x) (st_m s) (st_t s).
  Definition set_m (s : mst) d x := MSt (st_v s) (upd (st_m s) d x) (st_t s).
  Definition set_t (s : mst) d x := MSt (st_v s) (st_m s) (upd (st_t s) d x).
  (** n elements of uninitialised storage, from element b on *)
  Definition raw (g : nat -> T) (b n : nat) : list T := map g (seq b n).
  Definition ev (s : mst) (a : sarg T) : T :=
    match a with
    | ALit x => x
    | AGet v k => at_ (st_v s v) k
    | ALen v => av_length (st_v s v)
    | ALen2 v => av_length2 (st_v s v)
    | ADot v w => av_dot (st_v s v) (st_v s w)
    end.
  (** one call; the lines are those cited in Matrix.v *)
  Definition mstep (g : nat -> T) (s : mst) (c : mcall T) : outcome mst :=
    match c with
    | VDef d => Ret (set_v s d (raw g 0 3))                                            (* :20 *)
    | VMake d x y z => Ret (set_v s d (av (ev s x) (ev s y) (ev s z)))
    | VSet d k x => Ret (set_v s d (av_set (st_v s d) k (ev s x)))
    | VNorm d => Ret (set_v s d (av_normalize (st_v s d)))
    | VAdd d a b => Ret (set_v s d (av_add (st_v s a) (st_v s b)))
    | VSub d a b => Ret (set_v s d (av_sub (st_v s a) (st_v s b)))
    | VScale d a f => Ret (set_v s d (av_scale (st_v s a) (ev s f)))
    | VDiv d a f => Ret (set_v s d (av_divs (st_v s a) (ev s f)))
    | VOpp d a => Ret (set_v s d (av_opp (st_v s a)))
    | VMulM d m v => Ret (set_v s d (am_mulv (st_m s m) (st_v s v)))
    | VApply d t v => Ret (set_v s d (at_apply (st_t s t) (st_v s v)))
    | VRow d m k => let* r := am_row (st_m s m) k in Ret (set_v s d r)
    | VOrigin d t => Ret (set_v s d (a_o (st_t s t)))                                  (* :238 *)
    | MDef d => Ret (set_m s d (raw g 0 9))                                            (* :91 *)
    | MMake d l => Ret (set_m s d (map (ev s) l))
    | MRpy d r p y => Ret (set_m s d (arr_rpy (st_m s d) (ev s r) (ev s p) (ev s y)))
    | MMul d a b => Ret (set_m s d (am_mul (st_m s a) (st_m s b)))
    | MBasis d t => Ret (set_m s d (a_r (st_t s t)))                                   (* :240 *)
    | TDef d => Ret (set_t s d (ATr (raw g 0 3) (raw g 3 9)))                          (* :169 *)
    | TMake d x y z r p w => Ret (set_t s d (at_make (raw g 3 9) (ev s x) (ev s y) (ev s z) (ev s r) (ev s p) (ev s w)))
    | TOf d m v => Ret (set_t s d (at_of (st_m s m) (st_v s v)))
    | TRpy d r p y => Ret (set_t s d (at_rpy (st_t s d) (ev s r) (ev s p) (ev s y)))
    | TMul d a b => Ret (set_t s d (at_mul (st_t s a) (st_t s b)))
    | TInv d a => Ret (set_t s d (at_inverse (st_t s a)))
    end.
  Fixpoint mrun (g : nat -> nat -> T) (k : nat) (s : mst) (cs : list (mcall T)) : outcome mst :=
    match cs with [] => Ret s | c :: cs => let* s' := mstep (g k) s c in mrun g (S k) s' cs end.
  (** before the program every variable is default-constructed; the storage comes from the oracle g0 (kind, variable, element) *)
  Definition mstart (g0 : nat -> nat -> nat -> T) : mst :=
    MSt (fun d => raw (g0 0 d) 0 3) (fun d => raw (g0 1 d) 0 9) (fun d => ATr (raw (g0 2 d) 0 3) (raw (g0 2 d) 3 9)).
End Run.
Arguments mst : clear implicits.

(** the same program on scalars that may be uninitialised *)
Definition cells_s {T} (a : sarg T) : sarg (cell T) := match a with ALit x => ALit (Val x) | AGet v k => AGet v k | ALen v => ALen v | ALen2 v => ALen2 v | ADot v w => ADot v w end.
Definition cells_c {T} (c : mcall T) : mcall (cell T) :=
  match c with
  | VDef d => VDef d | VMake d x y z => VMake d (cells_s x) (cells_s y) (cells_s z) | VSet d k x => VSet d k (cells_s x) | VNorm d => VNorm d
  | VAdd d a b => VAdd d a b | VSub d a b => VSub d a b | VScale d a f => VScale d a (cells_s f) | VDiv d a f => VDiv d a (cells_s f) | VOpp d a => VOpp d a
  | VMulM d m v => VMulM d m v | VApply d t v => VApply d t v | VRow d m k => VRow d m k | VOrigin d t => VOrigin d t
  | MDef d => MDef d | MMake d l => MMake d (map cells_s l) | MRpy d r p y => MRpy d (cells_s r) (cells_s p) (cells_s y) | MMul d a b => MMul d a b | MBasis d t => MBasis d t
  | TDef d => TDef d | TMake d x y z r p w => TMake d (cells_s x) (cells_s y) (cells_s z) (cells_s r) (cells_s p) (cells_s w) | TOf d m v => TOf d m v
  | TRpy d r p y => TRpy d (cells_s r) (cells_s p) (cells_s y) | TMul d a b => TMul d a b | TInv d a => TInv d a
  end.
(** what is initialised after a program, and with which values *)
Definition cells {T} {NT : Num T} {TR : Trig T} (cs : list (mcall T)) : outcome (mst (cell T)) :=
  mrun (fun _ _ => Uninit) 0 (mstart (fun _ _ _ => Uninit)) (map cells_c cs).
