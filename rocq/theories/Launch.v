(** * Launch: what the streaming samples make of their options, and the debugging subscriber.
    Models sample/algorithm/npp_window.py 128-196, tsp_window.py 175-243, npp_delta.py 25-64, npp_incremental.py 25-64,
    npp_partial.py 26-74, npp_attenuation.py 25-67 and sample/pubsub/subscribe_pubsub.py 57-60. The text of the Dataflow
    arguments other than the project and the bucket, the parsing of the command line (argparse hands an option that is not
    given over as None) and Beam's run are not modelled. *)
From Verif Require Import PyBase Numbers Services Stream Constraint LogicalModel.
Local Open Scope string_scope.
Local Open Scope list_scope.

(** The samples; each file defines one function of its own name. *)
Inductive sample := NppWindow | TspWindow | NppDelta | NppIncremental | NppPartial | NppAttenuation.
(** The arguments of the functions (npp_window.py 128-137). The last three are arguments of npp_window and tsp_window only;
    the other four functions do not look at them. *)
Record options := mkOptions {
  o_project : option string; o_input : option string; o_topic : option string; o_subscription : option string;
  o_output : option string; o_output_topic : option string; o_dataflow : bool; o_bucket : option string }.
(** How a message is read (io.py 27-41), where messages come from and where results go. *)
Inductive format := AsNumber | AsJson.
Inductive input := FromText (path : string) (f : format) | FromPubsub (s : source) (f : format).
Inductive sink := ToText (path : string) | ToPubsub (topic : string) | ToStdout.
Inductive runner := DirectRunner | DataflowRunner (project : option string) (bucket : string).
(** What is handed to create_pipeline. *)
Record job := mkJob {
  j_algorithm : algorithm; j_mtype : mtype; j_runner : runner; j_streaming : bool;
  j_input : input; j_reassign : bool; j_sink : sink; j_size : Z; j_period : option Z }.

Definition given (a : option string) : bool := match a with Some _ => true | None => false end.
(** "if dataflow and dataflow_bucket" (npp_window.py 139-156, tsp_window.py 186-203). *)
Definition choose_runner (o : options) : runner :=
  match o_dataflow o, o_bucket o with
  | true, Some b => if truthy (Some b) then DataflowRunner (o_project o) b else DirectRunner
  | _, _ => DirectRunner
  end.
(** "--streaming" (npp_window.py 159-160 and the same lines of the other samples). *)
Definition streaming (o : options) : bool :=
  given (o_project o) && (given (o_topic o) || given (o_subscription o)).
(** The Pub/Sub branches: "project is not None and input_topic is not None", then the same for the subscription. None: neither
    branch is taken. *)
Definition pubsub_input (f : format) (o : options) : option (res (input * bool)) :=
  match o_project o, o_topic o, o_subscription o with
  | Some p, Some t, _ => Some (rbind (pubsub_source p (Some t) None) (fun s => Ok (FromPubsub s f, false)))
  | Some p, None, Some b => Some (rbind (pubsub_source p None (Some b)) (fun s => Ok (FromPubsub s f, false)))
  | _, _, _ => None
  end.
(** The file branch also sets "input.reassign_timestamp". *)
Definition text_input (f : format) (o : options) : option (res (input * bool)) :=
  match o_input o with Some path => Some (Ok (FromText path f, true)) | None => None end.
Definition first_branch {A} (a b : option A) : option A := match a with Some x => Some x | None => b end.
(** npp_window.py 170-176 and tsp_window.py 217-223 look for Pub/Sub first; npp_delta.py 40-46 and the other three look for the
    file first. *)
Definition input_branch (s : sample) (o : options) : option (res (input * bool)) :=
  match s with
  | NppWindow => first_branch (pubsub_input AsNumber o) (text_input AsNumber o)
  | TspWindow => first_branch (pubsub_input AsJson o) (text_input AsJson o)
  | _ => first_branch (text_input AsNumber o) (pubsub_input AsNumber o)
  end.
(** npp_window.py 178-183 (the same in tsp_window.py); npp_delta.py 48-51 and the other three have no output topic. *)
Definition choose_sink (s : sample) (o : options) : res sink :=
  match o_output o with
  | Some path => Ok (ToText path)
  | None =>
      match s with
      | NppWindow | TspWindow =>
          match o_project o, o_output_topic o with
          | Some p, Some t => rbind (pubsub_sink p t) (fun path => Ok (ToPubsub path))
          | _, _ => Ok ToStdout
          end
      | _ => Ok ToStdout
      end
  end.
Definition sample_algorithm (s : sample) : algorithm :=
  match s with NppWindow | TspWindow => Window | NppDelta => Delta | NppIncremental => Incremental | NppPartial => Partial | NppAttenuation => Attenuation end.
Definition sample_mtype (s : sample) : mtype := match s with TspWindow => Qubo | _ => Ising end.
(** "window.size" ("incremental.size") and "window.period" in algorithm_options. *)
Definition sample_size (s : sample) : Z :=
  match s with NppWindow => 30 | TspWindow => 5 | NppDelta => 10 | NppIncremental => 10 | NppPartial => 10 | NppAttenuation => 20 end%Z.
Definition sample_period (s : sample) : option Z :=
  match s with NppWindow => Some 5 | TspWindow => Some 1 | NppDelta => None | NppIncremental => None | NppPartial => Some 10 | NppAttenuation => Some 5 end%Z.
Definition sample_runner (s : sample) (o : options) : runner :=
  match s with NppWindow | TspWindow => choose_runner o | _ => DirectRunner end.
(** The functions: the source, then the sink, then the call of create_pipeline, where input_fn is unbound if no branch was taken. *)
Definition launch (s : sample) (o : options) : res job :=
  match input_branch s o with
  | Some (Err e) => Err e
  | Some (Ok (i, reassign)) =>
      rbind (choose_sink s o) (fun k =>
        Ok (mkJob (sample_algorithm s) (sample_mtype s) (sample_runner s o) (streaming o) i reassign k (sample_size s) (sample_period s)))
  | None => rbind (choose_sink s o) (fun _ => Err UnboundLocalError)
  end.

(** ** sample/pubsub/subscribe_pubsub.py *)

(** The callback (57-60): prints the decoded message and acknowledges it. [decode]: bytes.decode("utf-8"); an exception in the
    callback is reported by the client library and the message stays unacknowledged. [now]: the clock, read when the n-th message
    comes. *)
Section Subscriber.
  Variables (D : Type) (decode : D -> res string) (now : nat -> string) (path : string).
  Record console := mkConsole { c_lines : list string; c_acked : list nat }.
  Definition callback (n : nat) (d : D) (c : console) : console :=
    match decode d with
    | Ok text => mkConsole (c_lines c ++ ["[" +++ now n +++ "] Received message from '" +++ path +++ "': " +++ text]) (c_acked c ++ [n])
    | Err _ => c
    end.
  Fixpoint subscribe (n : nat) (l : list D) (c : console) : console :=
    match l with [] => c | d :: r => subscribe (S n) r (callback n d c) end.
End Subscriber.
