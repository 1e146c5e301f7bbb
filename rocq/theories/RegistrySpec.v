(** Vocabulary for the registry of builtins. *)
From Coq Require Import String ZArith List Bool.
From Verif Require Import Base ValueModel ResolverModel RegistryModel.
Import ListNotations.
Local Open Scope Z_scope.
Local Open Scope list_scope.

(** The last operation of a history on which [f] is defined gives [a]. *)
Definition last_such {A} (f : op -> option A) (h : list op) (a : A) : Prop :=
  exists h1 o h2, h = h1 ++ o :: h2 /\ f o = Some a /\ Forall (fun o => f o = None) h2.
Definition sets_policy (o : op) : option policy :=
  match o with SetWhitelist l => Some (Whitelist l) | SetBlacklist l => Some (Blacklist l) | SetAllowAll => Some AllowAll | _ => None end.
Definition sets_strict (o : op) : option bool := match o with SetStrict b => Some b | _ => None end.
(** A registration is undone by a change of policy. *)
Definition sets_builtin (name : str) (o : op) : option (option builtin) :=
  match o with
  | Register b => if str_eqb (bu_name b) name then Some (Some b) else None
  | SetWhitelist _ | SetBlacklist _ | SetAllowAll => Some None
  | _ => None
  end.
Definition policy_after (h : list op) (p : policy) : Prop := last_such sets_policy h p \/ (Forall (fun o => sets_policy o = None) h /\ p = AllowAll).
Definition strict_after (h : list op) (b : bool) : Prop := last_such sets_strict h b \/ (Forall (fun o => sets_strict o = None) h /\ b = false).
Definition registered (h : list op) (name : str) (b : builtin) : Prop := last_such (sets_builtin name) h (Some b).
Definition permits (p : policy) (name : str) : Prop := match p with AllowAll => True | Whitelist l => In name l | Blacklist l => ~ In name l end.
(** What a name means after a history. *)
Inductive meaning (std : str -> outcome (option builtin)) (h : list op) (name : str) : outcome (option builtin) -> Prop :=
| mn_registered b : registered h name b -> meaning std h name (Ok (Some b))
| mn_standard p : (forall b, ~ registered h name b) -> policy_after h p -> permits p name -> meaning std h name (std name)
| mn_forbidden p b : (forall b, ~ registered h name b) -> policy_after h p -> ~ permits p name -> std name = Ok (Some b) ->
    meaning std h name (Ok (Some {| bu_name := name; bu_arity := bu_arity b; bu_body := NotAvailable |}))
| mn_broken p o : (forall b, ~ registered h name b) -> policy_after h p -> ~ permits p name -> std name = o -> (forall b, o <> Ok (Some b)) ->
    meaning std h name (match o with Ok _ => Ub | o => o end).
(** The call goes through to the builtin. *)
Definition accepts (b : builtin) (name : str) (args : list value) : Prop :=
  ~ In name deprecated /\ (bu_arity b = None \/ bu_arity b = Some (Z.of_nat (length args))) /\ forall c, ~ In (VErr c) args.
