(** Touchstone files: ReadTSF.py, WriteTSF.py and rfBase.tsf2str, on texts.

    Left out: log messages, warnings, the time stamps (a parameter), the fields 'part',
    'numbering' and 'variables' of the result of ReadTSF.  Numbers are exact; nan and inf
    are not values.  Characters are 8-bit, white space is that of ASCII. *)
From mathcomp Require Import all_ssreflect all_algebra.
From Coq Require Import String Ascii.
From Verif Require Import Base ConvModel UtilModel.
Set Implicit Arguments.
Unset Strict Implicit.
Unset Printing Implicit Defensive.
Import Order.TTheory GRing.Theory Num.Theory.
Local Open Scope string_scope.
Local Open Scope ring_scope.
Local Open Scope seq_scope.

(** * python's text methods *)
(** c.isspace(): \t \n \v \f \r, 0x1c-0x1f and the blank *)
Definition isspace (a : ascii) : bool :=
  let n := nat_of_ascii a in [|| (9 <= n <= 13)%N, (28 <= n <= 31)%N | n == 32%N].
Fixpoint lstrip (s : string) : string :=
  if s is String a s' then if isspace a then lstrip s' else s else "".
Fixpoint rstrip (s : string) : string :=
  if s is String a s' then
    if rstrip s' is String b s'' then String a (String b s'')
    else if isspace a then "" else String a ""
  else "".
Definition strip (s : string) : string := rstrip (lstrip s).
(** s.split() *)
Fixpoint words (s : string) : seq string :=
  if s is String a s' then
    if isspace a then words s'
    else if s' is String b _ then
      if isspace b then String a "" :: words s'
      else if words s' is w :: ws then String a w :: ws else [:: String a ""]
    else [:: String a ""]
  else [::].
Definition bang : ascii := "!"%char.
(** s.split('!',1)[0] *)
Fixpoint before_bang (s : string) : string :=
  if s is String a s' then if Ascii.eqb a bang then "" else String a (before_bang s') else "".
(** s.split('!',1)[1], or '' when there is no '!' *)
Fixpoint after_bang (s : string) : string :=
  if s is String a s' then if Ascii.eqb a bang then s' else after_bang s' else "".
Definition upchar (a : ascii) : ascii :=
  let n := nat_of_ascii a in if (97 <= n <= 122)%N then ascii_of_nat (n - 32) else a.
(** s.upper() *)
Fixpoint upper (s : string) : string := if s is String a s' then String (upchar a) (upper s') else "".
(** what follows [p] in s when s starts with p *)
Fixpoint chop (p s : string) : option string :=
  match p, s with
  | EmptyString, _ => Some s
  | String a p', String b s' => if Ascii.eqb a b then chop p' s' else None
  | _, _ => None
  end.
(** re.findall(p + '(.+)', s)[0] for a pattern p without special characters, in a text
    without \n: what follows the first p that is followed by something *)
Fixpoint find_rest (p s : string) : option string :=
  match chop p s with
  | Some (String a r) => Some (String a r)
  | _ => if s is String _ s' then find_rest p s' else None
  end.
Definition sp : string := " ".
(** ' ' * n *)
Fixpoint blanks (n : nat) : string := if n is n'.+1 then String " " (blanks n') else "".

Section Tsf.
Variable C : numClosedFieldType.
(** float(s); None: ValueError.  int(s) likewise *)
Variable float : string -> option C.
Variable pyint : string -> option int.
(** re.search of '(?i)\s*(?:Gamma)\s+!?(.+)' and of '(?i)\s*(?:Port Impedance)(.+)': group 1 *)
Variables reG reZ : string -> option string.
(** np.exp(1j * x * np.pi / 180.), 10**(x/20.) *)
Variables expideg pow10_20 : C -> C.
(** pattern % k for a port pattern such as 'port-%03d' *)
Variable fmt_port : string -> nat -> res string.

(** config.py 218-219: FUNITS[u.upper()]; KeyError for an unknown unit *)
Definition funits (u : string) : res C :=
  let U := upper u in
  if U == "HZ" then Ok 1 else if U == "KHZ" then Ok (10 ^ 3)%N%:R
  else if U == "MHZ" then Ok (10 ^ 6)%N%:R else if U == "GHZ" then Ok (10 ^ 9)%N%:R
  else Raise KeyError.
Definition fscale (frm to : string) : res C :=
  do a <- funits frm; do b <- funits to; Ok (a / b).

(** * ReadTSF: the lines, ReadTSF.py 54-98 *)
Record rd := Rd { r_comments : seq string; r_fs : seq C; r_coefs : seq C;
                  r_Ss : seq (seq C); r_marker : nat; r_fmt : option string }.
Definition rd0 := Rd [::] [::] [::] [::] 0 None.
(** items[odd::2] + 1j * items[odd+1::2] *)
Fixpoint pairs (l : seq C) : seq C :=
  if l is a :: b :: l' then (a + 'i * b) :: pairs l' else [::].
Definition opt (A : Type) (e : exn) (o : option A) : res A := if o is Some x then Ok x else Raise e.
Definition floats (ws : seq string) : res (seq C) := mapM (fun w => opt ValueError (float w)) ws.
Definition MARKER := "*** DATA MARKER ***".
(** 74-98: a line of numbers *)
Definition data_line (st : rd) (items : seq C) : rd :=
  let odd := odd (size items) in
  let Ss := if odd && (r_coefs st != [::]) then rcons (r_Ss st) (r_coefs st) else r_Ss st in
  let coefs := if odd then [::] else r_coefs st in
  let fs := if odd then rcons (r_fs st) (head 0 items) else r_fs st in
  let coefs := coefs ++ pairs (if odd then behead items else items) in
  if r_marker st == 0%N then
    let cs := rcons (r_comments st) MARKER in
    Rd cs fs coefs Ss (size cs) (r_fmt st)
  else Rd (r_comments st) fs coefs Ss (r_marker st) (r_fmt st).
(** 61-98, one line *)
Definition read_line (st : rd) (aline : string) : res rd :=
  match strip aline with
  | EmptyString => Ok st
  | String a s =>
    if Ascii.eqb a bang then
      Ok (Rd (rcons (r_comments st) (String a s)) (r_fs st) (r_coefs st) (r_Ss st) (r_marker st) (r_fmt st))
    else if Ascii.eqb a "#"%char then
      if r_fmt st is Some _ then Raise ValueError
      else Ok (Rd (r_comments st) (r_fs st) (r_coefs st) (r_Ss st) (r_marker st) (Some (String a s)))
    else do items <- floats (words (before_bang (String a s))); Ok (data_line st items)
  end.
Fixpoint read_lines (st : rd) (ls : seq string) : res rd :=
  if ls is l :: ls' then do st' <- read_line st l; read_lines st' ls' else Ok st.

(** 101-106: int(round(np.sqrt(L))) *)
Definition nports_of (L : nat) : nat := let r := Nat.sqrt L in if (r * r + r < L)%N then r.+1 else r.
(** np.array(Ss).reshape((nf, N, N)): ragged data and a wrong size are ValueErrors *)
Definition reshape (nf : nat) (Ss : seq (seq C)) : res {N : nat & seq 'M[C]_N} :=
  let L := size (head [::] Ss) in
  let N := nports_of L in
  let flat := flatten Ss in
  if all (fun r => size r == L) Ss && (size Ss * L == nf * (N * N))%N then
    Ok (existT _ N [seq \matrix_(i < N, j < N) flat`_(k * (N * N) + (i * N + j)) | k <- iota 0 nf])
  else Raise ValueError.

(** * the option line, 108-147 *)
(** an impedance: None, a number or a list of numbers *)
Inductive zspec := ZNum of C | ZList of seq C.
Record opts := Opts { p_type : string; p_fmt : string; p_unit : string;
                      p_Z : option zspec;                 (** Zbase *)
                      p_Zlist : option (seq C) }.         (** None: Zlist is not bound *)
Definition opts0 := Opts "S" "MA" "GHZ" None None.
(** 128-143; TZ: the keyword Zbase *)
Definition close_R (TZ : option zspec) (o : opts) (zs : seq C) : opts :=
  let Z := match zs with
           | [:: z] => Some (ZNum z)
           | [::] => Some (if TZ is Some z then z else ZNum 50%:R)
           | _ => Some (ZList zs)
           end in
  Opts (p_type o) (p_fmt o) (p_unit o) Z (Some zs).
Fixpoint options (TZ : option zspec) (o : opts) (items : seq string) {struct items} : res opts :=
  if items is kw :: rest then
    if kw \in [:: "S"; "Y"; "Z"] then
      options TZ (Opts kw (p_fmt o) (p_unit o) (p_Z o) (p_Zlist o)) rest
    else if kw \in [:: "MA"; "RI"; "DB"] then
      options TZ (Opts (p_type o) kw (p_unit o) (p_Z o) (p_Zlist o)) rest
    else if kw \in [:: "HZ"; "KHZ"; "MHZ"; "GHZ"] then
      options TZ (Opts (p_type o) (p_fmt o) kw (p_Z o) (p_Zlist o)) rest
    else if kw == "R" then
      (fix rloop (zs : seq C) (l : seq string) {struct l} : res opts :=
         if l is x :: l' then
           if float x is Some z then rloop (rcons zs z) l' else options TZ (close_R TZ o zs) l
         else Ok (close_R TZ o zs)) [::] rest
    else Raise ValueError
  else Ok o.

(** * special comments, 149-187 *)
Record spec := Spec { s_ports : option (seq string); s_markers : option (seq C);
                      s_shape : option (seq int) }.
Definition spec0 := Spec None None None.
Definition comment_line (st : spec) (aline : string) : res spec :=
  let st := if find_rest "!PORTS " aline is Some r
            then Spec (Some (map strip (split_on ","%char r))) (s_markers st) (s_shape st) else st in
  do st <- (if find_rest "!MARKERS " aline is Some r
            then do m <- floats (words r); Ok (Spec (s_ports st) (Some m) (s_shape st)) else Ok st);
  do st <- (if find_rest "!SHAPE " (upper aline) is Some r
            then do sh <- mapM (fun w => opt ValueError (pyint w)) (take 2 (words r));
                 if size sh == 1%N then Raise AttributeError           (* a tuple has no append *)
                 else Ok (Spec (s_ports st) (s_markers st) (Some sh)) else Ok st);
  if find_rest "!NUMBERING " aline is Some r then
    if s_shape st is Some sh then
      (if (size sh < 2)%N then Raise IndexError else Ok st) else Raise TypeError  (* len(None) *)
  else Ok st.
Fixpoint comment_lines (st : spec) (ls : seq string) : res spec :=
  if ls is l :: ls' then do st' <- comment_line st l; comment_lines st' ls' else Ok st.

(** * port impedances and gammas in the comments, 236-292 *)
Inductive last_ := LNone | LGamma | LImp.
Record gz := Gz { g_Gms : seq (seq C); g_Gmsk : seq C; g_Zcs : seq (seq C); g_Zcsk : seq C; g_last : last_ }.
Definition gz0 := Gz [::] [::] [::] [::] LNone.
(** [float(r[i])+1j*float(r[i+1]) for i in range(0,len(r),2)] *)
Fixpoint cplxs (r : seq string) : res (seq C) :=
  match r with
  | [::] => Ok [::]
  | a :: [::] => do _ <- opt ValueError (float a); Raise IndexError
  | a :: b :: r' => do x <- opt ValueError (float a); do y <- opt ValueError (float b);
                    do l <- cplxs r'; Ok ((x + 'i * y) :: l)
  end.
Definition push (A : Type) (l : seq (seq A)) (x : seq A) := if x is [::] then l else rcons l x.
(** 244-284: every collected comment starts with '!', so the text before it is empty *)
Definition gz_line (st : gz) (aline : string) : res gz :=
  let rest := after_bang aline in
  let isG := if g_last st is LGamma then true else false in
  let isZ := if g_last st is LImp then true else false in
  let goG := if reG rest is Some _ then true else isG && ~~ isSome (reZ rest) in
  if goG then
    if isG then do l <- cplxs (words rest);
                Ok (Gz (g_Gms st) (g_Gmsk st ++ l) (g_Zcs st) (g_Zcsk st) LGamma)
    else do l <- cplxs (words (odflt "" (reG rest)));
         Ok (Gz (push (g_Gms st) (g_Gmsk st)) l (g_Zcs st) (g_Zcsk st) LGamma)
  else if isSome (reZ rest) || isZ then
    if isZ then do l <- cplxs (words rest);
                Ok (Gz (g_Gms st) (g_Gmsk st) (g_Zcs st) (g_Zcsk st ++ l) LImp)
    else do l <- cplxs (words (odflt "" (reZ rest)));
         Ok (Gz (g_Gms st) (g_Gmsk st) (push (g_Zcs st) (g_Zcsk st)) l LImp)
  else Ok st.
Fixpoint gz_lines (st : gz) (ls : seq string) : res gz :=
  if ls is l :: ls' then do st' <- gz_line st l; gz_lines st' ls' else Ok st.
(** 286-292: np.array of a list of rows; its rows, all of the same length *)
Definition np_rows (l : seq (seq C)) : res (seq (seq C)) :=
  if all (fun r => size r == size (head [::] l)) l then Ok l else Raise ValueError.
(** 294-330: the rows of impedances and of gammas, with the number of columns N or N**2 *)
Definition diag_row (N : nat) (r : seq C) : seq C := [seq r`_(k * N + k) | k <- iota 0 N].
Definition zc_rows (nf N : nat) (g : gz) : res (seq (seq C) * seq (seq C)) :=
  do G <- np_rows (push (g_Gms g) (g_Gmsk g));
  do Z <- np_rows (push (g_Zcs g) (g_Zcsk g));
  if (G != [::]) || (Z != [::]) then
    let cols := size (head [::] G) in
    if [|| size G != size Z, cols != size (head [::] Z), size G != nf |
           (cols != N) && (cols != N * N)%N] then Raise IOError
    else if cols == (N * N)%N then Ok (map (diag_row N) Z, map (diag_row N) G)
    else Ok (Z, G)
  else Ok (Z, G).

(** * the coefficients, 333-342 *)
Definition from_fmt (datafmt : string) (x : C) : C :=
  if datafmt == "MA" then 'Re x * expideg ('Im x)
  else if datafmt == "DB" then pow10_20 ('Re x) * expideg ('Im x)
  else x.

(** truth value of an impedance argument *)
Definition truthy (z : zspec) : bool := match z with ZNum c => c != 0 | ZList l => l != [::] end.
Definition nd_z (z : zspec) : nd C := match z with ZNum c => Nd0 c | ZList l => Nd1 l end.
(** TZbase if TZbase else d *)
Definition z_or (TZ : option zspec) (d : zspec) : zspec :=
  if TZ is Some z then if truthy z then z else d else d.
Definition size_z (z : zspec) : nat := match z with ZNum _ => 1 | ZList l => size l end.

(** 345-411; Zcs: rows of impedances.  362: for one port Zcs is a list (327), which a
    tuple does not index.  388-396 with a list of impedances is not modelled
    (NotImplementedError stands for it).  396: S_from_Y raises TypeError (Imports.v). *)
Definition to_S (TZ : option zspec) (o : opts) (Zcs : seq (seq C)) (N : nat) (Ss : seq 'M[C]_N)
  : res (nd C) :=
  let nZcs := if Zcs is r :: _ then size r else 0%N in
  do nZ <- (if nZcs != 0%N then
              match p_Z o with
              | Some z => if (size_z z == nZcs) && (nZcs == 1)%N then Raise TypeError else Ok (size_z z)
              | None => Ok 0%N
              end
            else opt UnboundLocalError (omap size (p_Zlist o)));
  let fifty := ZNum 50%:R in
  if p_type o == "Z" then
    match z_or TZ (odflt fifty (p_Z o)) with
    | ZNum z => S_from_Z (Nd3 Ss) z
    | ZList _ => Raise NotImplementedError
    end
  else if p_type o == "Y" then Raise TypeError
  else if nZcs != 0%N then
    ConvertGeneral (nd_z (z_or TZ fifty)) (Nd3 Ss)
      (Nd2 (\matrix_(k < size Zcs, j < nZcs) (nth [::] Zcs k)`_j)) "P" "V"
  else match p_Z o with
       | Some z => if (nZ == 1)%N || (nZ == N) then
                     ConvertGeneral (nd_z (z_or TZ fifty)) (Nd3 Ss) (nd_z z) "P" "V"
                   else Raise ValueError
       | None => ConvertGeneral (nd_z (z_or TZ fifty)) (Nd3 Ss) (Nd1 [::]) "P" "V"
       end.

(** * port names, 416-445 *)
Inductive ports_arg := PText of string | PList of seq string.
Definition choose_ports (arg : option ports_arg) (found : option (seq string)) (N : nat)
  : res (option (seq string)) :=
  let gen p := do l <- mapM (fmt_port p) (iota 1 N); Ok (Some l) in
  match arg with
  | Some (PText p) => gen p
  | Some (PList l) => if size l == N then Ok (Some l) else Ok found
  | None => if found is Some l then
              if (l != [::]) && (size l == N) then Ok (Some l) else gen "port-%03d"
            else gen "port-%03d"
  end.

(** * ReadTSF, the whole function: the keywords Zbase, funit and ports *)
Record tsf := Tsf { t_ports : option (seq string); t_fs : seq C; t_funit : string; t_Ss : nd C;
                    t_markers : option (seq C); t_shape : option (seq int);
                    t_Zc : seq (seq C); t_Gm : seq (seq C); t_datafmt : string }.
Definition read_tsf (TZ : option zspec) (Tfunit : option string) (Tports : option ports_arg)
    (ls : seq string) : res tsf :=
  do st <- read_lines rd0 ls;                                               (* 61-98 *)
  do a <- reshape (size (r_fs st)) (rcons (r_Ss st) (r_coefs st));          (* 101-106 *)
  let: existT N Ss := a in
  do f <- (if r_fmt st is Some f then Ok f else Raise TypeError);           (* 110: None[1:] *)
  do o <- options TZ opts0 (words (upper (if f is String _ f' then f' else "")));
  do sc <- comment_lines spec0 (take (r_marker st) (r_comments st));        (* 154-187 *)
  do _ <- (if r_comments st is [::] then Raise IndexError else Ok tt);      (* 193-195 *)
  do g <- gz_lines gz0 (drop (r_marker st) (r_comments st));                (* 246-284 *)
  do zg <- zc_rows (size (r_fs st)) N g;
  do u <- fscale (p_unit o) (odflt "GHz" Tfunit);                           (* 333 *)
  let fs := [seq f * u | f <- r_fs st] in
  let Ss := [seq map_mx (from_fmt (p_fmt o)) S | S <- Ss] in                (* 336-342 *)
  do S <- to_S TZ o zg.1 Ss;
  do ports <- choose_ports Tports (s_ports sc) N;
  Ok (Tsf ports fs (p_unit o) S (s_markers sc) (s_shape sc) zg.1 zg.2 (p_fmt o)).

(** ReadTSF(src, ...) for a text or a file name, through getlines *)
Definition ReadTSF (files : string -> option string) (src : string) TZ Tfunit Tports : res tsf :=
  do ls <- (getlines files (fun _ => "") (SText src)).2; read_tsf TZ Tfunit Tports ls.

(** * WriteTSF *)
(** ('%' + spec) % x *)
Variable fmtf : string -> C -> string.
(** 20.*np.log10(x), np.angle(x, 1), and the text of the date *)
Variables (db : C -> C) (angdeg : C -> C) (date : string).

(** re.findall('^.*?([KMG]?HZ).*$', s)[0] for a text without \n; IndexError if none *)
Fixpoint find_unit (s : string) : res string :=
  if s is String _ s' then
    if chop "KHZ" s is Some _ then Ok "KHZ" else if chop "MHZ" s is Some _ then Ok "MHZ"
    else if chop "GHZ" s is Some _ then Ok "GHZ" else if chop "HZ" s is Some _ then Ok "HZ"
    else find_unit s'
  else Raise IndexError.
(** re.findall('(RI|MA|DB)', s) *)
Fixpoint find_fmts (s : string) : seq string :=
  match s with
  | String a (String b s2 as s1) =>
    let w := String a (String b "") in
    if w \in [:: "RI"; "MA"; "DB"] then w :: find_fmts s2 else find_fmts s1
  | _ => [::]
  end.
(** WriteTSF.py 44-45 *)
Definition wunit (tsf_format : string) : res C := do u <- find_unit (upper tsf_format); funits u.
(** 56-65 *)
Definition wfmt (tsf_format : string) : res string :=
  match find_fmts (upper tsf_format) with
  | [::] => Ok "DB" | [:: f] => Ok f | _ => Raise ValueError
  end.
(** 47-54: the number after the first 'R' (upper case) that has one,
    R\s*([-+]?(?:\d*[\.])?\d+(?:[eE][-+]?\d+)?) ; 50 otherwise *)
Definition isdig (a : ascii) : bool := (48 <= nat_of_ascii a <= 57)%N.
(** the leading digits and the rest *)
Fixpoint digits (s : string) : string * string :=
  if s is String a s' then
    if isdig a then let: (d, r) := digits s' in (String a d, r) else ("", s)
  else ("", "").
(** [eE][-+]?\d+, optional *)
Definition expo (s : string) : string :=
  if s is String a s' then
    if (Ascii.eqb a "e"%char) || (Ascii.eqb a "E"%char) then
      let: (sg, s1) := (if s' is String b s'' then
                          if (Ascii.eqb b "-"%char) || (Ascii.eqb b "+"%char) then (String b "", s'') else ("", s')
                        else ("", s')) in
      let: (d, _) := digits s1 in
      if d == "" then "" else (String a sg ++ d)%string
    else ""
  else "".
Definition number (s : string) : option string :=
  let: (sg, s0) := (if s is String b s'' then
                      if (Ascii.eqb b "-"%char) || (Ascii.eqb b "+"%char) then (String b "", s'') else ("", s)
                    else ("", s)) in
  let: (d1, s1) := digits s0 in
  let alt := if d1 == "" then None else Some (sg ++ d1 ++ expo s1)%string in
  if s1 is String a s2 then
    if Ascii.eqb a "."%char then
      let: (d2, s3) := digits s2 in
      if d2 == "" then alt else Some (sg ++ d1 ++ "." ++ d2 ++ expo s3)%string
    else alt
  else alt.
Fixpoint find_R (s : string) : option string :=
  if s is String a s' then
    if Ascii.eqb a "R"%char then
      if number (lstrip s') is Some n then Some n else find_R s'
    else find_R s'
  else None.
Definition wzref (tsf_format : string) : C :=
  if find_R tsf_format is Some n then odflt 50%:R (float n) else 50%:R.

(** 96-98: the default number formats *)
Definition num_formats (fmt : string) : string * string * string :=
  if fmt \in [:: "DB"; "MA"] then ("9.5f", "15.12f", "+8.4f") else ("8.4f", "10.7f", "10.7f").
(** 101: ' '*(1 + int(num_format[0].split('.')[0])) *)
Definition leadspaces (nf0 : string) : res string :=
  do w <- opt ValueError (pyint (head "" (split_on "."%char nf0)));
  Ok (if (1 + w) is Posz n then blanks n else "").
(** the pair of numbers written for a coefficient *)
Definition wpair (fmt : string) (x : C) : C * C :=
  if fmt == "RI" then ('Re x, 'Im x)
  else if fmt == "DB" then (db `|x|, angdeg x) else (`|x|, angdeg x).
(** 109-124: row kr, from column kc on; xs: the rest of the row, n: the number of ports *)
Fixpoint wrow (n : nat) (fmt f1 f2 lead : string) (kr kc : nat) (xs : seq C) : string :=
  if xs is x :: xs' then
    let p := wpair fmt x in
    (fmtf f1 p.1 ++ " " ++ fmtf f2 p.2 ++ " " ++
     (if ((kc %% 4 == 3) && (kc != n.-1))%N then
        (if kc == 3%N then " !    row " ++ decimal kr.+1 else "") ++ nl ++ lead
      else "") ++ wrow n fmt f1 f2 lead kr kc.+1 xs')%string
  else "".
(** 108-129: the rows, from row kr on *)
Fixpoint wrows (n : nat) (fmt f1 f2 lead : string) (kr : nat) (rows : seq (seq C)) : string :=
  if rows is r :: rows' then
    (wrow n fmt f1 f2 lead kr 0 r ++
     (if (2 < n)%N then nl ++ (if (kr != n.-1)%N then lead else "") else "") ++
     wrows n fmt f1 f2 lead kr.+1 rows')%string
  else "".
Definition mx_rows n (S : 'M[C]_n) : seq (seq C) := [seq [seq S i j | j <- enum 'I_n] | i <- enum 'I_n].
(** 104-131: the frequencies; getS: object.getS(fk, Zbase=zref) *)
Fixpoint wfreqs n (getS : C -> res 'M[C]_n) (fmt f0 f1 f2 lead : string) (u : C) (fs : seq C) : res string :=
  if fs is f :: fs' then
    do S <- getS f;
    do s <- wfreqs getS fmt f0 f1 f2 lead u fs';
    Ok (fmtf f0 (f / u) ++ " " ++ wrows n fmt f1 f2 lead 0 (mx_rows S) ++ nl ++ s)%string
  else Ok "".
(** the lines of the comments, 40-44 *)
Fixpoint wcomments (ls : seq string) : string :=
  if ls is l :: ls' then ("! " ++ l ++ nl ++ wcomments ls')%string else "".
Definition version := "2024-12-20 14:21:10".
(** 36-131: the text; ports: None when the object has no attribute 'ports' or an empty one;
    fs: the argument or object.fs *)
Definition WriteTSF n (getS : C -> C -> res 'M[C]_n) (ports : option (seq string)) (fs : seq C)
    (tsf_format : string) (num_format : option (string * string * string)) (comments : string) : res string :=
  do u <- wunit tsf_format;
  let zref := wzref tsf_format in
  do fmt <- wfmt tsf_format;
  if fs is [::] then Raise ValueError else
  let: (f0, f1, f2) := odflt (num_formats fmt) num_format in
  do lead <- leadspaces f0;
  do body <- wfreqs (fun f => getS f zref) fmt f0 f1 f2 lead u fs;
  Ok ("! TouchStone file (pyRFtk.WriteTSF version " ++ version ++ ")" ++ nl ++
      "! Date : " ++ date ++ " " ++ nl ++ nl ++
      wcomments (split_on LF comments) ++
      nl ++ "# " ++ tsf_format ++ " " ++ nl ++ nl ++
      (if ports is Some ps then if ps is [::] then "" else "!PORTS " ++ String.concat ", " ps ++ nl ++ nl else "") ++
      body)%string.

(** * rfBase.tsf2str, rfBase.py 315-437 *)
(** round(x, m), and the order in which the elements of a python set are listed *)
Variable round : C -> nat -> C.
Variable setlist : seq C -> seq C.
(** 398-403: the first positive step of the set of steps, else the last one; the frequency
    itself when there is only one *)
Definition diffs (Fs : seq C) : seq C := [seq x.2 - x.1 | x <- zip Fs (behead Fs)].
Definition pick_df (Fs : seq C) : C :=
  if Fs is [:: f] then f else
  let l := setlist (undup (diffs Fs)) in
  if [seq d <- l | 0 < d] is d :: _ then d else last 0 l.
(** 405-410: 15, 12, 9, ... as long as the rounded step does not change *)
Fixpoint freq_m (df df0 : C) (k : nat) : nat :=
  if df0 == round df (3 * k)%N then if k is k'.+1 then freq_m df df0 k' else 0%N else (3 * k.+1)%N.
Definition freq_digits (Fs : seq C) : nat := let df := pick_df Fs in freq_m df (round df 15) 5.
(** 411-414 *)
Definition seq_max (Fs : seq C) : C := foldl (fun a b => if a < b then b else a) (head 0 Fs) Fs.
Definition freq_width (Fs : seq C) : nat :=
  String.length (fmtf ("." ++ decimal (freq_digits Fs) ++ "f")%string (seq_max Fs)).
Definition freq_fmt (Fs : seq C) : string :=
  (decimal (freq_width Fs) ++ "." ++ decimal (freq_digits Fs) ++ "f")%string.
Definition freq_text (Fs : seq C) (f : C) : string := fmtf (freq_fmt Fs) f.
Definition freq_len (Fs : seq C) : nat := (freq_width Fs).+1.
Record ofmt := Ofmt { q_type : string; q_elm : option string; q_Zref : C; q_scale : C }.
(** 333-359: the loop over the directives; [last] is the previous one *)
Fixpoint tfmt_loop (o : ofmt) (last_ : string) (fmts : seq string) : res ofmt :=
  if fmts is tk :: rest then
    do o' <- (if last_ == "R" then Ok o
              else if tk == "R" then
                if rest is z :: _ then
                  do x <- opt ValueError (float z); Ok (Ofmt (q_type o) (q_elm o) x (q_scale o))
                else Raise IndexError
              else if tk \in [:: "HZ"; "KHZ"; "MHZ"; "GHZ"] then
                do u <- funits tk; Ok (Ofmt (q_type o) (q_elm o) (q_Zref o) u)
              else if tk \in [:: "RI"; "MA"; "DB"] then Ok (Ofmt (q_type o) (Some tk) (q_Zref o) (q_scale o))
              else if tk \in [:: "S"; "Y"; "Z"] then Ok (Ofmt tk (q_elm o) (q_Zref o) (q_scale o))
              else Raise ValueError);
    tfmt_loop o' tk rest
  else Ok o.
(** 326-331 *)
Definition elstr (fmt : string) (x : C) : string :=
  let p := wpair fmt x in
  let: (f1, f2) := if fmt == "RI" then ("11.8f", "11.8f")
                   else if fmt == "MA" then ("15.12f", "9.4f") else ("15.10f", "9.4f") in
  ("  " ++ fmtf f1 p.1 ++ " " ++ fmtf f2 p.2)%string.
(** 425-431; [is] between small integers is equality *)
Fixpoint trow (n : nat) (fmt lead : string) (kr kc : nat) (xs : seq C) : string :=
  if xs is x :: xs' then
    (elstr fmt x ++ "  " ++
     (if ((kc %% 4 == 3) && (kc != n.-1))%N then
        (if kc == 3%N then " !    row " ++ decimal kr.+1 else "") ++ nl ++ lead
      else "") ++ trow n fmt lead kr kc.+1 xs')%string
  else "".
(** 424-434 *)
Fixpoint trows (n : nat) (fmt lead : string) (kr : nat) (rows : seq (seq C)) : string :=
  if rows is r :: rows' then
    (trow n fmt lead kr 0 r ++ nl ++ (if (kr != n.-1)%N then lead else "") ++ trows n fmt lead kr.+1 rows')%string
  else "".
(** 417-435 *)
Fixpoint tfreqs n (fmt : string) (Fs : seq C) (fs : seq C) (Ss : seq 'M[C]_n) : string :=
  match fs, Ss with
  | f :: fs', Sm :: Ss' =>
    (freq_text Fs f ++ " " ++ trows n fmt (blanks (freq_len Fs)) 0 (mx_rows (if n == 2%N then Sm^T else Sm)) ++
     nl ++ tfreqs fmt Fs fs' Ss')%string
  | _, _ => ""
  end.
(** an object with matrices Ss on the impedance Zb at the frequencies fs, called without fs=;
    tfmt: None for the default, whose number is [ztext].  The type of data 'Z' or 'Y' calls
    a module (TypeError, Imports.v) *)
Definition tsf2str n (cls : string) (ports : seq string) (Zb : C) (ztext : string) (fs : seq C) (Ss : seq 'M[C]_n)
    (tfmt : option string) (comments : seq string) : res string :=
  let tf := odflt ("# MHZ S MA R " ++ ztext)%string tfmt in
  let ws := words (upper tf) in
  do fmts <- (if ws is w :: ws' then Ok (if w == "#" then ws' else ws) else Raise IndexError);
  do o <- tfmt_loop (Ofmt "S" None 50%:R 1) "" fmts;
  do Ms <- (if q_type o == "S" then ConvertGeneral (Nd0 (q_Zref o)) (Nd3 Ss) (Nd0 Zb) "V" "V" else Raise TypeError);
  let Fs := [seq f / q_scale o | f <- fs] in
  do _ <- (if fs is [::] then Raise IndexError else Ok tt);
  do body <- (match Ms with
              | @Nd3 _ m p S' => if @sqs C m p S' is Some S'' then
                  if q_elm o is Some e then Ok (@tfreqs m e Fs Fs S'') else Raise UnboundLocalError
                else Raise TypeError
              | _ => Raise TypeError
              end);
  Ok (wcomments comments ++ nl ++
      "! TouchStone file (" ++ cls ++ " version 2023-11-07 16:56:18)" ++ nl ++
      "! Date : " ++ date ++ nl ++ nl ++ tf ++ nl ++
      "!PORTS " ++ String.concat ", " ports ++ nl ++ nl ++ body)%string.
End Tsf.
