(** Model of MeanMixingRatio (gusto/spatial_methods/augmentation.py l.269-421): the constructor's indices and limit() on the mixed state, in one cell; the
    limiter itself is mmr_limit of Kernels.v.  X k: nodal values of component k in the cell; wts: the integrals of the density (its nodal values)
    times the basis functions, by which ConservativeProjector weights (the density is the same on both sides, l.338). *)
From Coq Require Import String.
From Verif Require Import Base Kernels EquationSets.
Open Scope R_scope.
Open Scope list_scope.

(** l.318-326, for one name: all active tracers of that name are looked at *)
Fixpoint densities_of (fields : list string) (tracers : list active_tracer) (n : string) : res (list nat) :=
  match tracers with
  | [] => Ok []
  | t :: r => if String.eqb (a_name t) n
              then match a_density t with
                   | Some dn => match index_of dn fields with Some j => do js <- densities_of fields r n; Ok (j :: js) | None => Err ValueError end
                   | None => Err ValueError
                   end
              else densities_of fields r n
  end.
(** l.306-326: mX_idxs and rho_idxs *)
Fixpoint mmr_init (fields : list string) (tracers : list active_tracer) (names : list string) : res (list nat * list nat) :=
  match names with
  | [] => Ok ([], [])
  | n :: r => match index_of n fields with
              | None => Err ValueError
              | Some i => do js <- densities_of fields tracers n; do p <- mmr_init fields tracers r; Ok (i :: fst p, js ++ snd p)
              end
  end.
Section Limit.
Variable wts : list R -> list R.
(** l.400-411: self.rho_idxs[i], by position *)
Fixpoint gather (mX rho : list nat) (X : nat -> list R) : res (list (list R * list R)) :=
  match mX, rho with
  | [], _ => Ok []
  | _ :: _, [] => Err IndexError
  | m :: mX, r :: rho => do l <- gather mX rho X; Ok ((wts (X r), X m) :: l)
  end.
(** l.419-421 *)
Definition scatter (mX : list nat) (vals : list (list R)) (X : nat -> list R) : nat -> list R :=
  fold_left (fun X p => fun k => if Nat.eqb k (fst p) then snd p else X k) (combine mX vals) X.
(** limit, l.386-421. *)
Definition mmr_limit_state (mX rho : list nat) (X : nat -> list R) : res (nat -> list R) :=
  do l <- gather mX rho X; Ok (scatter mX (mmr_limit l) X).
End Limit.
