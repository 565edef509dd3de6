(** Model of the netCDF field output in serial and in parallel (gusto/core/io.py): create_nc_dump l.823-893, write_nc_dump l.895-931,
    make_nc_dataset l.980-1017, gather_field_data l.1020-1045, the part of setup_dump about the file (l.427-428, 445-464), and
    Coordinates.register_space (gusto/core/coordinates.py l.65-109).
    A field is one array of values per rank (field.dat.data_ro: the degrees of freedom the rank owns), V the type of numbers.  Metadata and text attributes are left out. *)
From Coq Require Import List String Bool Arith QArith.
Import ListNotations.
From Verif Require Import Base.
Close Scope Q_scope.
Open Scope nat_scope.
Open Scope list_scope.

Section Nc.
Context {V : Type}.
(** values of a field, by rank *)
(** Auxiliary, nothing in the code by itself. *)
Definition parts := list (list V).
(** comm.exscan(nlocal): nothing on rank 0, on rank r the sum over the ranks before it *)
(** Auxiliary, nothing in the code by itself. *)
Definition sum (l : list nat) : nat := fold_right Nat.add 0 l.
(** Used at coordinates.py l.100-109. *)
Definition exscan (n : list nat) (r : nat) : option nat := match r with 0 => None | _ => Some (sum (firstn r n)) end.
(** coordinates.py l.103-109: (start, stop) *)
Definition array_lims (p : parts) (r : nat) : nat * nat :=
  let start := match exscan (map (@length V) p) r with Some s => s | None => 0 end in
  (start, start + length (nth r p [])).

(** a space: its name, whether its values are scalars, and the coordinate fields (name and values) *)
(** Auxiliary, nothing in the code by itself. *)
Record space := { s_name : string; s_scalar : bool; s_coords : list (string * parts) }.
(** chi_coords and parallel_array_lims after register_space l.65-109: vector-valued spaces are not registered.
    The limits are found from the first coordinate *)
Definition registered (spaces : list space) (n : string) : option space :=
  find (fun s => String.eqb (s_name s) n && s_scalar s) spaces.
(** coordinates.py l.103-109; used at l.867-873. *)
Definition lims_of (s : space) (r : nat) : nat * nat := match s_coords s with (_, p) :: _ => array_lims p r | [] => (0, 0) end.
(** space.dim(): all degrees of freedom *)
(** l.849-861. *)
Definition ndofs (s : space) : nat := match s_coords s with (_, p) :: _ => sum (map (@length V) p) | [] => 0 end.

(** ** The file *)
(** variables, each with the length of its first dimension (1 for time, whose own dimension is the record dimension) and its values by
    position and record; a coordinate has one record.  Fill values are None *)
(** Auxiliary, nothing in the code by itself. *)
Inductive var := VTime | VCoord (s c : string) | VField (f : string).
(** Auxiliary, nothing in the code by itself. *)
Definition var_eq_dec (a b : var) : {a = b} + {a <> b}.
Proof. decide equality; apply string_dec. Defined.
(** Auxiliary, nothing in the code by itself. *)
Definition ncfile := var -> option (nat * (nat -> nat -> option V)).
(** Auxiliary, nothing in the code by itself. *)
Definition no_data : ncfile := fun _ => None.
(** Auxiliary, nothing in the code by itself. *)
Inductive wr :=
| New (v : var) (n : nat)                              (* createVariable; in a file that has it: no change *)
| Put (v : var) (start : nat) (l : list V) (idx : nat) (* [start:stop, idx] = l *).
(** Auxiliary, nothing in the code by itself. *)
Definition put (start : nat) (l : list V) (a : nat -> option V) : nat -> option V :=
  fun i => if (start <=? i) && (i <? start + length l) then nth_error l (i - start) else a i.
(** netCDF4: the first dimension is fixed, so that what does not fit is an error; a variable must exist *)
(** The netCDF calls of l.823-931. *)
Definition do_write (F : ncfile) (w : wr) : res ncfile :=
  match w with
  | New v n => Ok (fun v' => if var_eq_dec v' v then match F v with Some x => Some x | None => Some (n, fun _ _ => None) end else F v')
  | Put v start l idx =>
      match F v with
      | None => Err KeyError
      | Some (n, a) => if start + length l <=? n then
          Ok (fun v' => if var_eq_dec v' v then Some (n, fun i j => if j =? idx then put start l (fun i => a i j) i else a i j) else F v')
          else Err IndexError
      end
  end.
(** Auxiliary, nothing in the code by itself. *)
Fixpoint do_writes (F : ncfile) (ws : list wr) : res ncfile := match ws with [] => Ok F | w :: ws => do F <- do_write F w; do_writes F ws end.

(** ** What a rank does: communications all ranks have to take part in, and writes *)
(** Auxiliary, nothing in the code by itself. *)
Inductive event := Together (what : string) | Write (w : wr).
(** Auxiliary, nothing in the code by itself. *)
Definition writes_of (l : list event) : list wr := flat_map (fun e => match e with Write w => [w] | Together _ => [] end) l.
(** Auxiliary, nothing in the code by itself. *)
Definition calls_of (l : list event) : list string := flat_map (fun e => match e with Write _ => [] | Together c => [c] end) l.
(** gather_field_data: on one rank no communication; the result on rank 0 (None elsewhere) *)
(** gather_field_data, l.1020-1060. *)
Definition gather_calls (size : nat) (what : string) : list event := if size =? 1 then [] else [Together what].
(** gather_field_data, l.1020-1060. *)
Definition gathered (p : parts) (r : nat) : option (list V) :=
  if length p =? 1 then Some (nth r p []) else if r =? 0 then Some (concat p) else None.
Section Rank.
Variables (parallel : bool)   (* nc_supports_parallel *)
          (size r : nat) (spaces : list space).
(** a file object exists: everywhere with parallel netCDF, else on rank 0 *)
(** make_nc_dataset, l.980-1017. *)
Definition has_file : bool := parallel || (r =? 0).
(** The guards of l.833-931. *)
Definition when_file (l : list event) : list event := if has_file then l else [].
(** make_nc_dataset and close, l.823-931. *)
Definition open_close (l : list event) : list event := if parallel then [Together "open"] ++ l ++ [Together "close"] else l.
(** one array to be written, l.867-873 and 917-926; new: from its part start *)
Definition array_events (what : string) (s : space) (p : parts) (mk : nat -> list V -> wr) : list event :=
  if parallel then [Together what; Write (mk (fst (lims_of s r)) (nth r p []))]
  else gather_calls size what ++ (if r =? 0 then match gathered p r with Some l => [Write (mk 0 l)] | None => [] end else []).
(** l.829-830: time; l.852-873: coordinates of the spaces; then l.876-891: variables of the fields *)
Definition create_events (space_names : list string) (fields : list (string * string)) : list event :=
  open_close (when_file [Write (New VTime 1)] ++
  flat_map (fun n => match registered spaces n with
                     | None => []
                     | Some s => flat_map (fun cp => when_file [Write (New (VCoord n (fst cp)) (ndofs s))] ++ array_events (fst cp) s (snd cp) (fun start l => Put (VCoord n (fst cp)) start l 0)) (s_coords s)
                     end) space_names ++
  flat_map (fun fs => match registered spaces (snd fs) with None => [] | Some s => when_file [Write (New (VField (fst fs)) (ndofs s))] end) fields).
(** l.895-931.  Writing time is collective with parallel netCDF *)
Definition dump_events (fields : list (string * string)) (data : string -> parts) (idx : nat) (t : V) : list event :=
  open_close (
  (if parallel then [Together "time"] else []) ++ when_file [Write (Put VTime 0 [t] idx)] ++
  flat_map (fun fs => match registered spaces (snd fs) with None => [] | Some s => array_events (fst fs) s (data (fst fs)) (fun start l => Put (VField (fst fs)) start l idx) end) fields).
End Rank.

(** ** All ranks: their writes arrive in any order that keeps the order of each rank (more orders than the communications allow) *)
(** Auxiliary, nothing in the code by itself. *)
Inductive interleaved {A} : list (list A) -> list A -> Prop :=
| int_done : forall ls, Forall (fun l => l = []) ls -> interleaved ls []
| int_step : forall ls1 x l ls2 out, interleaved (ls1 ++ l :: ls2) out -> interleaved (ls1 ++ (x :: l) :: ls2) (x :: out).
(** one dump (or the creation) by all ranks: the file has been closed by all before the next one *)
(** create_nc_dump and write_nc_dump on all ranks, l.823-931. *)
Definition by_all (size : nat) (ev : nat -> list event) (F F' : ncfile) : Prop :=
  exists ws, interleaved (map (fun r => writes_of (ev r)) (seq 0 size)) ws /\ do_writes F ws = Ok F'.
(** create_nc_dump at the start of a run, then a number of dumps, field_t_idx counting them from idx (l.824, 931);
    data: the fields at every dump *)
Inductive dumps_done (parallel : bool) (size : nat) (spaces : list space) (fields : list (string * string)) : nat -> list (V * (string -> parts)) -> ncfile -> ncfile -> Prop :=
| dumps_0 : forall idx F, dumps_done parallel size spaces fields idx [] F F
| dumps_S : forall idx t data rest F F' F'', by_all size (fun r => dump_events parallel size r spaces fields data idx t) F F' ->
    dumps_done parallel size spaces fields (S idx) rest F' F'' -> dumps_done parallel size spaces fields idx ((t, data) :: rest) F F''.
(** setup_dump and dump, l.370-582, 722-806. *)
Definition fresh_run (parallel : bool) (size : nat) (spaces : list space) (space_names : list string) (fields : list (string * string)) (ds : list (V * (string -> parts))) (F : ncfile) : Prop :=
  exists F0, by_all size (fun r => create_events parallel size r spaces space_names fields) no_data F0 /\ dumps_done parallel size spaces fields 0 ds F0 F.
(** picking up, l.451-460: the file is kept and the index is the number of times in it; coordinates are not written again *)
Definition picked_up_run (parallel : bool) (size : nat) (spaces : list space) (fields : list (string * string)) (times : nat) (ds : list (V * (string -> parts))) (F F' : ncfile) : Prop :=
  dumps_done parallel size spaces fields times ds F F'.
End Nc.
Arguments ncfile : clear implicits.
Arguments space : clear implicits.
Arguments parts : clear implicits.
Arguments wr : clear implicits.
Arguments event : clear implicits.
