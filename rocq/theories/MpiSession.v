(** The MPI session of one process: MPIInit and MPIEnvironment as objects.
    Models include/NeoFOAM/core/mpi/environment.hpp:24-108 and, for builds with MPI,
    NF_ERROR_EXIT of include/NeoFOAM/core/error.hpp:99-107 (MPI_Abort).

    External (the MPI standard): MPI_Init may be called once, at the beginning;
    MPI_Finalize once, after it; MPI_Comm_rank, MPI_Comm_size and MPI_Abort only
    between the two; any other call is undefined behaviour here.  A communicator is
    a number; [pl_group c] is this process's rank in it and its size, [None] where
    the process is not part of it (calls are then undefined).  MPI_COMM_NULL is
    [None] below.  Simplification: argc and argv are left out. *)
From Verif Require Import Base.

Inductive mpiPhase := Before | Active | Finalised.
(** The platform: thread support MPI_Init_thread provides, groups; the build:
    NF_REQUIRE_MPI_THREAD_SUPPORT. *)
Record mpiPlatform := MpiPlatform {
  pl_multiple : bool;
  pl_require : bool;
  pl_group : nat -> option (nat * nat);
}.
(** MPIEnvironment (l.58-108): communicator, mpi_rank, mpi_size. *)
Record mpiEnv := MpiEnv { en_comm : nat; en_rank : nat; en_size : nat }.
Record mpiState := MpiState {
  ms_phase : mpiPhase;
  ms_inits : list bool;             (* MPIInit objects made so far: alive? *)
  ms_envs : list (option mpiEnv);   (* MPIEnvironment objects made so far *)
}.

Inductive mpiOp :=
| MInit                          (* MPIInit(argc, argv) *)
| MCopy (k : nat)                (* the implicit copy constructor of MPIInit *)
| MFree (k : nat)                (* ~MPIInit *)
| EOpen (comm : option nat)      (* MPIEnvironment(commGroup) *)
| ECopy (k : nat)
| EFree (k : nat)
| EError                         (* any NF_ERROR_EXIT *)
.

(** error.hpp:99-107 *)
Definition error_exit (s : mpiState) : outcome mpiState :=
  match ms_phase s with Active => Exit | _ => UB end.
Definition mpi_step (pl : mpiPlatform) (op : mpiOp) (s : mpiState) : outcome mpiState :=
  match op with
  (* l.32-44 *)
  | MInit =>
      match ms_phase s with
      | Before =>
          let s' := MpiState Active (ms_inits s ++ [true]) (ms_envs s) in
          if pl_require pl && negb (pl_multiple pl) then error_exit s' else Ok s'
      | _ => UB
      end
  (* l.24-50: no copy constructor declared and no data: nothing is called *)
  | MCopy k =>
      match ms_inits s !! k with
      | Some true => Ok (MpiState (ms_phase s) (ms_inits s ++ [true]) (ms_envs s))
      | _ => UB
      end
  (* l.49 *)
  | MFree k =>
      match ms_inits s !! k, ms_phase s with
      | Some true, Active => Ok (MpiState Finalised (<[k := false]> (ms_inits s)) (ms_envs s))
      | _, _ => UB
      end
  (* l.67-70, 102-107 *)
  | EOpen comm =>
      match comm with
      | None => error_exit s
      | Some c =>
          match ms_phase s, pl_group pl c with
          | Active, Some (r, n) => Ok (MpiState (ms_phase s) (ms_inits s) (ms_envs s ++ [Some (MpiEnv c r n)]))
          | _, _ => UB
          end
      end
  (* implicit copy constructor; l.75 *)
  | ECopy k =>
      match mjoin (ms_envs s !! k) with
      | Some e => Ok (MpiState (ms_phase s) (ms_inits s) (ms_envs s ++ [Some e]))
      | None => UB
      end
  | EFree k =>
      match mjoin (ms_envs s !! k) with
      | Some _ => Ok (MpiState (ms_phase s) (ms_inits s) (<[k := None]> (ms_envs s)))
      | None => UB
      end
  | EError => error_exit s
  end.
Fixpoint mpi_run (pl : mpiPlatform) (ops : list mpiOp) (s : mpiState) : outcome mpiState :=
  match ops with
  | [] => Ok s
  | op :: ops' => let! s' := mpi_step pl op s in mpi_run pl ops' s'
  end.
Definition mpi_start : mpiState := MpiState Before [] [].
(** l.82, 89, 96: sizeRank(), rank(), comm() *)
Definition env_rank (s : mpiState) (k : nat) : outcome nat :=
  match mjoin (ms_envs s !! k) with Some e => Ok (en_rank e) | None => UB end.
Definition env_sizeRank (s : mpiState) (k : nat) : outcome nat :=
  match mjoin (ms_envs s !! k) with Some e => Ok (en_size e) | None => UB end.
Definition env_comm (s : mpiState) (k : nat) : outcome nat :=
  match mjoin (ms_envs s !! k) with Some e => Ok (en_comm e) | None => UB end.
