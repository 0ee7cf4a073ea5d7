(** Model of the name binding done by 'import pyRFtk': python's import system
    restricted to the package's own relative imports.

    - importing a submodule m for the first time runs its body in a fresh namespace and
      *then* binds the attribute m of the package to the module object;
    - [from .m import n] binds n, in the importing namespace, to the attribute n of
      module m (a function or class defined there);
    - [from . import n] binds n to the attribute n of the package if there is one, and
      otherwise imports submodule n and binds the module object;
    - statements of __init__.py bind in the package namespace itself. *)
From mathcomp Require Import all_ssreflect all_algebra.
From Coq Require Import String.
From Verif Require Import Base ConvModel.
Set Implicit Arguments.
Unset Strict Implicit.
Unset Printing Implicit Defensive.

(** what a global name is bound to *)
Inductive pyval := PFun (m n : string) (** function / class / object n of module m *)
                 | PMod (m : string). (** the module object m *)

Inductive stmt :=
  | FromMod (m : string) (ns : seq string)   (** from .m import ns *)
  | FromPkg (ns : seq string)                (** from . import ns *)
  | Def (n : string).                        (** def n / class n / n = ... *)

Local Open Scope string_scope.

(** The relative imports and definitions of the package (top level statements, in the
    order of the files); numbers are line numbers in /repo/src/pyRFtk/<file>.py. *)
Definition bodies : seq (string * seq stmt) := [::
  ("config", [:: Def "setLogLevel"; Def "ident"; Def "logident"; Def "_newID"; Def "tLogger";
                Def "logit"; Def "rcparams"; Def "fscale"; Def "FUNITS"]);
  ("whoami", [:: Def "whoami"]);                                           (* 5 *)
  ("printMatrices", [:: Def "strM"; Def "printM"; Def "printRI"; Def "printMA"]);
  ("_check_3D_shape_", [:: Def "_check_3D_shape_"]);                       (* 9 *)
  ("ConvertGeneral", [:: FromMod "config" [:: "logit"; "logident"];        (* 5 *)
     FromMod "_check_3D_shape_" [:: "_check_3D_shape_"];                   (* 6 *)
     Def "ConvertGeneral"]);                                               (* 12 *)
  ("S_from_Z", [:: FromMod "_check_3D_shape_" [:: "_check_3D_shape_"];     (* 3 *)
     Def "S_from_Z"]);
  ("S_from_Y", [:: FromPkg [:: "_check_3D_shape_"];                        (* 4 *)
     Def "S_from_Y"]);
  ("S_from_VI", [:: Def "S_from_VI"]);
  ("Z_from_S", [:: FromMod "_check_3D_shape_" [:: "_check_3D_shape_"]; Def "Z_from_S"]);
  ("Y_from_S", [:: FromMod "_check_3D_shape_" [:: "_check_3D_shape_"]; Def "Y_from_S"]);
  ("getlines", [:: Def "getlines"]);
  ("findpath", [:: Def "findpath"]);
  ("maxfun", [:: FromMod "config" [:: "logit"; "tLogger"; "ident"]; Def "maxfun"]);
  ("resolveTLparams", [:: FromMod "whoami" [:: "whoami"]; Def "TLresolver"]);
  ("ReadTSF", [:: FromMod "getlines" [:: "getlines"];                      (* 9 *)
     FromMod "config" [:: "tLogger"; "logit"; "ident"];                    (* 10 *)
     FromMod "config" [:: "fscale"];                                       (* 11 *)
     FromMod "ConvertGeneral" [:: "ConvertGeneral"];                       (* 13 *)
     FromMod "S_from_Z" [:: "S_from_Z"];                                   (* 14 *)
     FromMod "S_from_Y" [:: "S_from_Y"];                                   (* 15 *)
     Def "ReadTSF"]);
  ("WriteTSF", [:: Def "WriteTSF"]);
  ("rfBase", [:: FromMod "config" [:: "logident"; "logit"; "_newID"];      (* 18 *)
     FromMod "whoami" [:: "whoami"];                                       (* 19 *)
     FromMod "printMatrices" [:: "strM"];                                  (* 20 *)
     FromMod "ConvertGeneral" [:: "ConvertGeneral"];                       (* 21 *)
     FromPkg [:: "Z_from_S"; "Y_from_S"];                                  (* 22 *)
     FromMod "_check_3D_shape_" [:: "_check_3D_shape_"];                   (* 23 *)
     Def "rfBase"]);                                                       (* 42 *)
  ("rfTRL", [:: FromMod "config" [:: "tLogger"; "logit"; "ident"];         (* 12-15 *)
     FromMod "config" [:: "_newID"]; FromMod "config" [:: "rcparams"];
     FromMod "config" [:: "fscale"];
     FromMod "ConvertGeneral" [:: "ConvertGeneral"];                       (* 17 *)
     FromMod "S_from_VI" [:: "S_from_VI"];                                 (* 18 *)
     FromMod "maxfun" [:: "maxfun"];                                       (* 19 *)
     FromMod "ReadTSF" [:: "ReadTSF"];                                     (* 20 *)
     FromMod "resolveTLparams" [:: "TLresolver"];                          (* 22 *)
     FromMod "whoami" [:: "whoami"];                                       (* 24 *)
     Def "rfTRL"]);
  ("rfObject", [:: FromMod "ReadTSF" [:: "ReadTSF"];                       (* 18 *)
     FromMod "ConvertGeneral" [:: "ConvertGeneral"];                       (* 19 *)
     FromMod "S_from_Y" [:: "S_from_Y"]; FromMod "S_from_Z" [:: "S_from_Z"];
     FromMod "_check_3D_shape_" [:: "_check_3D_shape_"];                   (* 22 *)
     FromMod "config" [:: "tLogger"; "logit"; "ident"]; FromMod "config" [:: "_newID"];
     FromMod "config" [:: "rcparams"]; FromMod "config" [:: "fscale"];
     FromMod "config" [:: "FUNITS"];
     FromMod "rfTRL" [:: "rfTRL"];                                         (* 30 *)
     FromMod "whoami" [:: "whoami"]; Def "rfObject"]);
  ("rfCircuit", [:: FromMod "ConvertGeneral" [:: "ConvertGeneral"];        (* 9 *)
     FromMod "printMatrices" [:: "strM"]; FromMod "whoami" [:: "whoami"];
     FromPkg [:: "rfBase"; "rfObject"];                                    (* 13 *)
     FromMod "config" [:: "logit"; "tLogger"; "ident"; "logident"];
     Def "rfCircuit"]);
  ("rfRLC", [:: FromMod "config" [:: "_newID"; "logit"; "logident"];       (* 13 *)
     FromMod "whoami" [:: "whoami"]; Def "rfRLC"]);
  ("rfGTL", [:: FromPkg [:: "rfCircuit"; "rfTRL"; "rfRLC"; "rfObject"; "rfArcObj"]; (* 16 *)
     FromMod "whoami" [:: "whoami"];
     FromMod "config" [:: "logit"; "tLogger"; "ident"; "_newID"; "logident"];
     Def "rfGTL"]);
  ("rfArcObj", [:: FromPkg [:: "rfBase"];                                  (* 14 *)
     FromMod "config" [:: "logit"; "logident"]; Def "rfArcObj"]);
  ("rfCoupler", [:: FromPkg [:: "rfBase"];                                 (* 11 *)
     FromMod "config" [:: "logit"; "logident"]; FromMod "whoami" [:: "whoami"];
     Def "rfCoupler"]);
  ("plotVSWs", [:: FromMod "config" [:: "setLogLevel"; "logit"; "tLogger"; "ident"];
     Def "plotVSWs"; Def "scaleVSW"; Def "strVSW"]);
  ("tictoc", [:: Def "tic"; Def "toc"]);
  ("ReadDictData", [:: FromMod "findpath" [:: "findpath"]; Def "ReadDictData"]);
  ("compareSs", [:: Def "compareSs"]);
  ("str_dict", [:: Def "str_dict"])].

(** __init__.py 5-37 *)
Definition init_body : seq stmt := [::
  FromMod "config" [:: "tLogger"; "setLogLevel"; "logit"; "ident"; "_newID"; "logident"];
  FromMod "rfBase" [:: "rfBase"];
  FromMod "rfObject" [:: "rfObject"];
  FromMod "rfCircuit" [:: "rfCircuit"];
  FromMod "rfTRL" [:: "rfTRL"];
  FromMod "rfRLC" [:: "rfRLC"];
  FromMod "rfGTL" [:: "rfGTL"];
  FromMod "rfArcObj" [:: "rfArcObj"];
  FromMod "rfCoupler" [:: "rfCoupler"];
  FromMod "S_from_Z" [:: "S_from_Z"];
  FromMod "S_from_Y" [:: "S_from_Y"];
  FromMod "S_from_VI" [:: "S_from_VI"];
  FromMod "Z_from_S" [:: "Z_from_S"];
  FromMod "Y_from_S" [:: "Y_from_S"];
  FromMod "ConvertGeneral" [:: "ConvertGeneral"];
  FromMod "ReadTSF" [:: "ReadTSF"];
  FromMod "WriteTSF" [:: "WriteTSF"];
  FromMod "maxfun" [:: "maxfun"];
  FromMod "resolveTLparams" [:: "TLresolver"];
  FromMod "plotVSWs" [:: "plotVSWs"; "scaleVSW"; "strVSW"];
  FromMod "_check_3D_shape_" [:: "_check_3D_shape_"];
  FromMod "getlines" [:: "getlines"];
  FromMod "printMatrices" [:: "strM"; "printM"; "printMA"; "printRI"];
  FromMod "tictoc" [:: "tic"; "toc"];
  FromMod "ReadDictData" [:: "ReadDictData"];
  FromMod "findpath" [:: "findpath"];
  FromMod "compareSs" [:: "compareSs"];
  FromMod "whoami" [:: "whoami"];
  FromMod "str_dict" [:: "str_dict"]].

(** interpreter state: the namespaces of the loaded modules; the package's own
    namespace is stored under the name "" *)
Definition pystate := seq (string * seq (string * pyval)).
Definition nsget (st : pystate) (m : string) := odflt [::] (dget st m).
Definition lookup (st : pystate) (m n : string) : option pyval := dget (nsget st m) n.
Definition bindn (st : pystate) (m n : string) (v : pyval) : pystate :=
  dset st m (dset (nsget st m) n v).

(** importing with fuel (import depth); None = ImportError or out of fuel *)
Fixpoint load (fuel : nat) (st : pystate) (m : string) {struct fuel} : option pystate :=
  if dhas st m then Some st else
  if fuel is k.+1 then
    if dget bodies m is Some body then
      let st0 := dset st m [::] in
      if foldl (exec1 k m) (Some st0) body is Some st1
      then Some (bindn st1 "" m (PMod m)) else None
    else None
  else None
with exec1 (fuel : nat) (here : string) (ost : option pystate) (s : stmt)
     {struct fuel} : option pystate :=
  if ost is Some st then
    match s with
    | Def n => Some (bindn st here n (PFun here n))
    | FromMod m ns =>
        if fuel is k.+1 then
          if load k st m is Some st1 then
            foldl (fun o n => if o is Some s1 then
                                if lookup s1 m n is Some v then Some (bindn s1 here n v)
                                else None else None) (Some st1) ns
          else None
        else None
    | FromPkg ns =>
        if fuel is k.+1 then
          foldl (fun o n => if o is Some s1 then
                   if lookup s1 "" n is Some v then Some (bindn s1 here n v)
                   else if load k s1 n is Some s2 then
                     if lookup s2 "" n is Some v then Some (bindn s2 here n v) else None
                   else None else None) (Some st) ns
        else None
    end
  else None.

(** import pyRFtk *)
Definition import_pyRFtk : option pystate :=
  foldl (exec1 100 "") (Some [:: ("", [::])]) init_body.

Definition bound (m n : string) : option pyval :=
  if import_pyRFtk is Some st then lookup st m n else None.

Section Call.
Variable C : numClosedFieldType.
(** pyRFtk.S_from_Y(Y, Zbase) as a user calls it: what the name _check_3D_shape_ of line 17
    of S_from_Y.py is bound to decides; calling a module object raises TypeError. *)
Definition S_from_Y (Y : nd C) (Zb : C) : res (nd C) :=
  match bound "S_from_Y" "_check_3D_shape_" with
  | Some (PFun _ _) => S_from_Y_fun Y Zb
  | Some (PMod _) => Raise TypeError
  | None => Raise AttributeError
  end.
End Call.

Lemma S_from_Y_binding : bound "S_from_Y" "_check_3D_shape_" = Some (PMod "_check_3D_shape_").
Proof. by vm_compute. Qed.

Lemma import_succeeds : isSome import_pyRFtk.
Proof. by vm_compute. Qed.

Lemma S_from_Y_always_raises C (Y : nd C) Zb : S_from_Y Y Zb = Raise TypeError.
Proof. by rewrite /S_from_Y S_from_Y_binding. Qed.

Lemma good_bindings :
  [/\ bound "S_from_Z" "_check_3D_shape_" = Some (PFun "_check_3D_shape_" "_check_3D_shape_"),
      bound "Z_from_S" "_check_3D_shape_" = Some (PFun "_check_3D_shape_" "_check_3D_shape_"),
      bound "Y_from_S" "_check_3D_shape_" = Some (PFun "_check_3D_shape_" "_check_3D_shape_")
    & bound "ConvertGeneral" "_check_3D_shape_" = Some (PFun "_check_3D_shape_" "_check_3D_shape_")].
Proof. by vm_compute. Qed.

Lemma bad_bindings :
  [/\ bound "rfBase" "Z_from_S" = Some (PMod "Z_from_S"),
      bound "rfBase" "Y_from_S" = Some (PMod "Y_from_S")
    & bound "rfGTL" "rfArcObj" = Some (PMod "rfArcObj")].
Proof. by vm_compute. Qed.

(** every name exported by the package itself is a function or class *)
Lemma package_exports n : n \in [:: "S_from_Z"; "S_from_Y"; "S_from_VI"; "Z_from_S"; "Y_from_S";
    "ConvertGeneral"; "rfCircuit"; "rfTRL"; "rfRLC"; "rfObject"; "rfGTL"; "rfArcObj"; "rfCoupler";
    "ReadTSF"; "WriteTSF"; "maxfun"; "getlines"; "findpath"; "str_dict"; "_check_3D_shape_"] ->
  bound "" n = Some (PFun n n).
Proof.
move=> H; have : all (fun n => if bound "" n is Some (PFun a b) then (a == n) && (b == n) else false)
  [:: "S_from_Z"; "S_from_Y"; "S_from_VI"; "Z_from_S"; "Y_from_S";
    "ConvertGeneral"; "rfCircuit"; "rfTRL"; "rfRLC"; "rfObject"; "rfGTL"; "rfArcObj"; "rfCoupler";
    "ReadTSF"; "WriteTSF"; "maxfun"; "getlines"; "findpath"; "str_dict"; "_check_3D_shape_"].
  by vm_compute.
move/allP/(_ n H); case: (bound "" n) => [[a b|]|] //.
by case/andP => /eqP -> /eqP ->.
Qed.
