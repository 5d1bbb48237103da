(** What the files printed with -compilable and -callable are for: which names a program can use,
    and what the files print and call. *)
From Coq Require Import ZArith List Bool Arith String Ascii Decimal DecimalString.
From Verif Require Import ClastSpec ClastModel PprintModel CReader PprintSpec FileModel FileReader.
Import ListNotations.
Local Open Scope string_scope.
Local Open Scope Z_scope.

(** *** names *)
Definition all_names (nm : names) : list string := (nm_scat nm ++ nm_iter nm ++ nm_par nm)%list.
Definition number (n : nat) : string := NilZero.string_of_uint (Nat.to_uint n).
(** The names are identifiers, no name is given twice to iterators, to scattering dimensions or to
    parameters, a parameter is no iterator, no name is one of those the file needs ([reserved]),
    every statement has a number of its own and no more dimensions than there are iterators. *)
Record well_named (reserved : string -> Prop) (nm : names) (bs : blocks) : Prop := {
  wn_ident : forall x, In x (all_names nm) -> ident x = true;
  wn_scat : NoDup (nm_scat nm);
  wn_iter : NoDup (nm_iter nm);
  wn_par : NoDup (nm_par nm);
  wn_apart : forall x, In x (nm_par nm) -> ~ In x (nm_scat nm) /\ ~ In x (nm_iter nm);
  wn_free : forall x, In x (all_names nm) -> ~ reserved x;
  wn_depth : forall d ns, In (d, ns) bs -> (d <= List.length (nm_iter nm))%nat;
  wn_once : NoDup (flat_map snd bs)
}.
Definition compilable_reserved (x : string) : Prop := x = "total" \/ x = "printf" \/ exists i, x = "PARVAL" ++ number i.
Definition callable_reserved (x : string) : Prop := x = "hash" \/ x = "printf" \/ x = "S0".
(** The statements only use these names, and call the statements of the blocks with as many
    arguments as the block has dimensions. *)
Definition uses_names (nm : names) (ss : list stmt) : Prop := forall x, In x (flat_map stmt_vars ss) -> In x (all_names nm).
Definition calls_blocks (bs : blocks) (ss : list stmt) : Prop :=
  forall n d, In (n, d) (flat_map stmt_calls ss) -> exists ns, In (d, ns) bs /\ In n ns.
(** the texts of the first line do not end the comment or the line *)
Definition one_line (s : string) : bool := all_chars (fun c => negb (Ascii.eqb c "*") && negb (is_newline c)) s.
Definition header_ok (o : fopts) : Prop := one_line (fo_name o) = true /\ one_line (fo_version o) = true /\
  match fo_time o with Some t => one_line t = true | None => True end.

(** *** what the files do *)
(** the parameters have these values, nothing else has one *)
Fixpoint with_params (ps : list string) (zs : list Z) : env :=
  match ps, zs with p :: ps', z :: zs' => assign (with_params ps' zs') p z | _, _ => fun _ => None end.
(** a line for every instance that has coordinates, and the number of instances *)
Definition instance_line (e : event) : list out :=
  match snd e with
  | [] => []
  | zs => [Printed ("S" ++ number (fst e) ++ String.concat "" (map (fun z => " " ++ decimal z) zs) ++ String (ascii_of_nat 10) "")]
  end.
Definition counted (t : list event) : list out :=
  (flat_map instance_line t ++ [Printed ("Number of integral points: " ++ decimal (Z.of_nat (List.length t)) ++ "." ++ String (ascii_of_nat 10) "")])%list.
(** hash is called with the number of the statement and with its coordinates; once with 0 when
    there are no statements *)
Definition hashed (t : list event) : list out :=
  flat_map (fun e => map (fun z => Called "hash" [z]) (Z.of_nat (fst e) :: snd e)) t.
