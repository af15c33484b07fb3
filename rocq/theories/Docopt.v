(** * The command lines: docopt on the two usage texts.
    docopt.cpp is an external library (cmake/modules/docopt.cmake takes its master branch); it is
    modelled function by function after its algorithm, on the texts of orthoproject.cpp:14-32 and
    cityformat.cpp:9-26.  Simplifications: an option of the text is described on one line, '...'
    is not a token and there is no '[options]' shortcut (true of both texts); the counter of a
    repeated flag is a value of the result, not shared with the parsed command line.  *)
From Coq Require Import Strings.String.
From Verif Require Import Base Dbl Decimal Streams Handlers Raster Cli.
Import List.
Import Coq.Strings.String.StringSyntax.
Delimit Scope string_scope with string.
Open Scope nat_scope.

(** ** The texts *)
(** orthoproject.cpp:14-32 *)
Definition ortho_usage : str := hdr "orthoproject.

    Usage:
      orthoproject <scene> --input-format=<input_frmt> [--prune --graphs --terrain] [save --scene --labels] [rasterize --pixel-size=<size>]
      orthoproject (-h | --help)
      orthoproject --version
    Options:
      -h --help                             Show this screen.
      --version                             Show version.
      --prune                               Prune building faces.
      --cache                               Save buildings.
      --input-format=<input_frmt>           Specify input format.
      --graphs                              Save the building facets dual graph.
      --scene                               Sum and save the scene projection.
      --labels                              Save vector projections with error fields.
      --terrain                             Taking care of terrain.
      --pixel-size=<size>                   Pixel size [default: 1].
"%string.
(** cityformat.cpp:9-26 *)
Definition format_usage : str := hdr "cityformat.

    Usage:
      cityformat <scene> --input-format=<input_frmt> [--prune --graphs --terrain] [output <path> --output-format=<output_format>]
      cityformat --formats
      cityformat (-h | --help)
      cityformat --version
    Options:
      -h --help                             Show this screen.
      --version                             Show version.
      --prune                               Prune building faces.
      --input-format=<input_frmt>           Specify input format.
      --graphs                              Save the building facets dual graph.
      --terrain                             Taking care of terrain.
      --output-format=<output_frmt>         Specify output format.
      --formats                             Give all possible formats.
"%string.

(** ** Texts *)
Definition ch_dash : ascii := "-"%char.
Definition ch_eq : ascii := "="%char.
Definition dash2 : str := [ch_dash; ch_dash].
Fixpoint prefix_of (a s : str) : bool :=
  match a, s with
  | [], _ => true
  | c :: a, d :: s => Ascii.eqb c d && prefix_of a s
  | _ :: _, [] => false
  end.
(** docopt.cpp, partition(): at the first '=', None when there is none *)
Fixpoint partition_eq (s : str) : str * option str :=
  match s with
  | [] => ([], None)
  | c :: s' => if Ascii.eqb c ch_eq then ([], Some s') else let '(a, v) := partition_eq s' in (c :: a, v)
  end.
(** split() on white space *)
Fixpoint words_acc (cur : str) (s : str) : list str :=
  match s with
  | [] => match cur with [] => [] | _ => [rev cur] end
  | c :: s => if is_space c then match cur with [] => words_acc [] s | _ => rev cur :: words_acc [] s end
              else words_acc (c :: cur) s
  end.
Definition words_of (s : str) : list str := words_acc [] s.
Fixpoint lines_acc (cur : str) (s : str) : list str :=
  match s with
  | [] => [rev cur]
  | c :: s => if Ascii.eqb c ch_nl then rev cur :: lines_acc [] s else lines_acc (c :: cur) s
  end.
Fixpoint contains_str (a s : str) : bool :=
  prefix_of a s || match s with [] => false | _ :: s => contains_str a s end.
Fixpoint after_colon (s : str) : str :=
  match s with [] => [] | c :: s => if Ascii.eqb c ":"%char then s else after_colon s end.
Definition indented (s : str) : bool := match s with c :: _ => Ascii.eqb c ch_sp || Ascii.eqb c "009"%char | [] => false end.
Fixpoint span_indented (ls : list str) : list str * list str :=
  match ls with
  | l :: ls' => if indented l then let '(a, b) := span_indented ls' in (l :: a, b) else ([], ls)
  | [] => ([], [])
  end.
(** parse_section(): a line that contains the name (in any case) and the indented lines below it *)
Fixpoint sections (fuel : nat) (name : str) (ls : list str) : list (list str) :=
  match fuel, ls with
  | S n, l :: ls => if contains_str name (map to_lower l) then let '(a, b) := span_indented ls in (l :: a) :: sections n name b
                    else sections n name ls
  | _, _ => []
  end.
Definition parse_section (name : str) (doc : str) : list (list str) :=
  let ls := lines_acc [] doc in sections (length ls) name ls.

(** ** Options *)
(** class Option: -x, --long, whether it takes an argument, its value *)
Record opt := mkOpt { o_short : str; o_long : str; o_takes : bool; o_value : value }.
Definition o_name (o : opt) : str := match o_long o with [] => o_short o | l => l end.
(** the constructor: no value instead of 'false' when there is an argument *)
Definition new_opt (short long : str) (takes : bool) (v : value) : opt :=
  mkOpt short long takes (match v with VBool false => if takes then VNone else v | _ => v end).
(** Option::parse: the part before two spaces, cut at ',', '=' and ' ' *)
Fixpoint cut_double_space (s : str) : str * str :=
  match s with
  | [] => ([], [])
  | c :: s' => match s' with
               | d :: _ => if Ascii.eqb c ch_sp && Ascii.eqb d ch_sp then ([], s) else let '(a, b) := cut_double_space s' in (c :: a, b)
               | [] => ([c], [])
               end
  end.
Fixpoint cut_option (cur : str) (s : str) : list str :=
  match s with
  | [] => [rev cur]
  | c :: s => if Ascii.eqb c ","%char || Ascii.eqb c ch_eq || Ascii.eqb c ch_sp then rev cur :: cut_option [] s else cut_option (c :: cur) s
  end.
Fixpoint before_last (e : ascii) (s : str) : option str :=
  match s with
  | [] => None
  | c :: s => match before_last e s with Some a => Some (c :: a) | None => if Ascii.eqb c e then Some [] else None end
  end.
Fixpoint find_default (s : str) : option str :=
  let d := hdr "[default: "%string in
  if prefix_of d (map to_lower s) then before_last "]"%char (skipn (length d) s)
  else match s with [] => None | _ :: s => find_default s end.
Definition parse_option (s : str) : opt :=
  let '(head, rest) := cut_double_space s in
  let parts := cut_option [] head in
  let takes := existsb (fun p => negb (prefix_of [ch_dash] p) && match p with [] => false | _ => true end) parts in
  let long := last (filter (prefix_of dash2) parts) [] in
  let short := last (filter (fun p => prefix_of [ch_dash] p && negb (prefix_of dash2 p)) parts) [] in
  new_opt short long takes (if takes then match find_default rest with Some d => VStr d | None => VBool false end else VBool false).
(** parse_defaults: one option per line of the section that starts with '-' *)
Definition parse_defaults (doc : str) : list opt :=
  concat (map (fun sec => concat (map (fun l => let t := skip_ws l in if prefix_of [ch_dash] t then [parse_option t] else []) (tl sec)))
              (parse_section (hdr "options:"%string) doc)).

(** ** Patterns *)
Inductive leaf := LArg (n : str) (v : value) | LCmd (n : str) (v : value) | LOpt (o : opt).
Inductive pat := PLeaf (l : leaf) | PReq (ps : list pat) | POpt (ps : list pat) | PEith (ps : list pat).
Definition leaf_name (l : leaf) : str := match l with LArg n _ | LCmd n _ => n | LOpt o => o_name o end.
Definition leaf_value (l : leaf) : value := match l with LArg _ v | LCmd _ v => v | LOpt o => o_value o end.

(** parse_long(): the option named by the head of [toks] (exactly or, on the command line, by a
    prefix), the rest of the tokens and the options known from then on; None: an error *)
Definition named (o : list opt) (n : str) : list opt := filter (fun x => str_eqb (o_long x) n) o.
Definition prefixed (o : list opt) (n : str) : list opt :=
  filter (fun x => match o_long x with [] => false | l => prefix_of n l end) o.
Definition parse_long (argv : bool) (tok : str) (toks : list str) (o : list opt) : option (opt * list str * list opt) :=
  let '(n, v) := partition_eq tok in
  let similar := match named o n with [] => if argv then prefixed o n else [] | l => l end in
  match similar with
  | [] => let x := new_opt [] n (match v with Some _ => true | None => false end) (VBool false) in
          let y := if argv then mkOpt [] n (o_takes x) (match v with Some s => VStr s | None => VBool true end) else x in
          Some (y, toks, o ++ [x])
  | [x] => if o_takes x then
             match v with
             | Some s => Some (if argv then mkOpt (o_short x) (o_long x) true (VStr s) else x, toks, o)
             | None => match toks with
                       | [] => None
                       | t :: toks => if (match t with [] => true | _ => false end) || str_eqb t dash2 then None
                                      else Some (if argv then mkOpt (o_short x) (o_long x) true (VStr t) else x, toks, o)
                       end
             end
           else match v with
                | Some _ => None
                | None => Some (if argv then mkOpt (o_short x) (o_long x) false (VBool true) else x, toks, o)
                end
  | _ => None
  end.
(** parse_short(): the letters [cs] after '-' *)
Fixpoint parse_shorts (argv : bool) (cs : str) (toks : list str) (o : list opt) : option (list opt * list str * list opt) :=
  match cs with
  | [] => Some ([], toks, o)
  | c :: cs =>
    let n := [ch_dash; c] in
    match filter (fun x => str_eqb (o_short x) n) o with
    | [] => let x := new_opt n [] false (VBool false) in
            match parse_shorts argv cs toks (o ++ [x]) with
            | Some (xs, t, o') => Some ((if argv then mkOpt n [] false (VBool true) else x) :: xs, t, o')
            | None => None
            end
    | [x] => if o_takes x then
               match cs with
               | [] => match toks with
                       | [] => None
                       | t :: toks => if (match t with [] => true | _ => false end) || str_eqb t dash2 then None
                                      else Some ([if argv then mkOpt (o_short x) (o_long x) true (VStr t) else x], toks, o)
                       end
               | _ => Some ([if argv then mkOpt (o_short x) (o_long x) true (VStr cs) else x], toks, o)
               end
             else match parse_shorts argv cs toks o with
                  | Some (xs, t, o') => Some ((if argv then mkOpt (o_short x) (o_long x) false (VBool true) else x) :: xs, t, o')
                  | None => None
                  end
    | _ => None
    end
  end.

(** ** The pattern of a usage text *)
(** Tokens::from_pattern: brackets, parentheses and bars stand alone *)
Definition strong (c : ascii) : bool := existsb (Ascii.eqb c) ["["; "]"; "("; ")"; "|"]%char.
Fixpoint pieces_acc (cur : str) (s : str) : list str :=
  let flush := match cur with [] => [] | _ => [rev cur] end in
  match s with
  | [] => flush
  | c :: s => if strong c then flush ++ [c] :: pieces_acc [] s else pieces_acc (c :: cur) s
  end.
(** formal_usage(): '(' ... ') | (' at each occurrence of the program's name ... ')' *)
Definition formal_usage (section : list str) : list str :=
  match words_of (after_colon (concat (map (fun l => l ++ [ch_nl]) section))) with
  | [] => [["("%char]; [")"%char]]
  | prog :: ws => ["("%char] :: concat (map (fun w => if str_eqb w prog then [[")"%char]; ["|"%char]; ["("%char]] else pieces_acc [] w) ws) ++ [[")"%char]]
  end.
(** is_argument_spec(): <name> or NAME *)
Definition is_upper (c : ascii) : bool := let n := N_of_ascii c in ((65 <=? n) && (n <=? 90))%N.
Definition is_argument (t : str) : bool :=
  match t with
  | [] => false
  | c :: _ => (Ascii.eqb c "<"%char && Ascii.eqb (last t c) ">"%char) || forallb is_upper t
  end.
(** parse_expr, parse_seq and parse_atom *)
Definition collapse (mk : list pat -> pat) (l : list pat) : pat := match l with [p] => p | _ => mk l end.
Definition closes (t : str) : bool := str_eqb t ["]"%char] || str_eqb t [")"%char] || str_eqb t ["|"%char].
Fixpoint parse_expr (n : nat) (toks : list str) (o : list opt) : option (list pat * list str * list opt) :=
  match n with
  | O => None
  | S n =>
    match parse_seq n toks o with
    | None => None
    | Some (s, t, o) =>
      match t with
      | b :: _ => if str_eqb b ["|"%char] then
          match parse_bars n t o with Some (l, t, o) => Some ([collapse PEith (collapse PReq s :: l)], t, o) | None => None end
        else Some (s, t, o)
      | [] => Some (s, t, o)
      end
    end
  end
with parse_bars (n : nat) (toks : list str) (o : list opt) : option (list pat * list str * list opt) :=
  match n with
  | O => None
  | S n =>
    match toks with
    | b :: toks' => if str_eqb b ["|"%char] then
        match parse_seq n toks' o with
        | None => None
        | Some (s, t, o) => match parse_bars n t o with Some (l, t, o) => Some (collapse PReq s :: l, t, o) | None => None end
        end
      else Some ([], toks, o)
    | [] => Some ([], toks, o)
    end
  end
with parse_seq (n : nat) (toks : list str) (o : list opt) : option (list pat * list str * list opt) :=
  match n with
  | O => None
  | S n =>
    match toks with
    | [] => Some ([], [], o)
    | t :: _ => if closes t then Some ([], toks, o) else
        match parse_atom n toks o with
        | None => None
        | Some (a, t, o) => match parse_seq n t o with Some (l, t, o) => Some (a ++ l, t, o) | None => None end
        end
    end
  end
with parse_atom (n : nat) (toks : list str) (o : list opt) : option (list pat * list str * list opt) :=
  match n with
  | O => None
  | S n =>
    match toks with
    | [] => None
    | t :: toks =>
      if str_eqb t ["("%char] then
        match parse_expr n toks o with Some (e, c :: t, o) => if str_eqb c [")"%char] then Some ([PReq e], t, o) else None | _ => None end
      else if str_eqb t ["["%char] then
        match parse_expr n toks o with Some (e, c :: t, o) => if str_eqb c ["]"%char] then Some ([POpt e], t, o) else None | _ => None end
      else if prefix_of dash2 t && negb (str_eqb t dash2) then
        match parse_long false t toks o with Some (x, t, o) => Some ([PLeaf (LOpt x)], t, o) | None => None end
      else if prefix_of [ch_dash] t && negb (str_eqb t [ch_dash]) && negb (str_eqb t dash2) then
        match parse_shorts false (tl t) toks o with Some (xs, t, o) => Some (map (fun x => PLeaf (LOpt x)) xs, t, o) | None => None end
      else if is_argument t then Some ([PLeaf (LArg t VNone)], toks, o)
      else Some ([PLeaf (LCmd t (VBool false))], toks, o)
    end
  end.
(** create_pattern_tree() and parse_pattern() *)
Definition pattern_of (doc : str) : option (pat * list opt) :=
  match parse_section (hdr "usage:"%string) doc with
  | [sec] =>
    let toks := formal_usage sec in
    match parse_expr (4 * length toks + 4) toks (parse_defaults doc) with
    | Some (l, [], o) => Some (PReq l, o)
    | _ => None
    end
  | _ => None
  end.

(** ** Pattern::fix *)
Definition value_eqb (a b : value) : bool :=
  match a, b with
  | VNone, VNone => true
  | VBool x, VBool y => Bool.eqb x y
  | VLong x, VLong y => (x =? y)%Z
  | VStr x, VStr y => str_eqb x y
  | VStrs x, VStrs y => list_eqb str_eqb x y
  | _, _ => false
  end.
Definition leaf_eqb (a b : leaf) : bool :=
  match a, b with
  | LArg n v, LArg m w | LCmd n v, LCmd m w => str_eqb n m && value_eqb v w
  | LOpt x, LOpt y => str_eqb (o_short x) (o_short y) && str_eqb (o_long x) (o_long y) && Bool.eqb (o_takes x) (o_takes y) && value_eqb (o_value x) (o_value y)
  | _, _ => false
  end.
(** transform(): the leaves that can be met together *)
Definition joined {A} (a b : list (list A)) : list (list A) := concat (map (fun x => map (fun y => x ++ y) b) a).
Fixpoint cases (p : pat) : list (list leaf) :=
  match p with
  | PLeaf l => [[l]]
  | PReq ps | POpt ps => (fix go ps := match ps with [] => [[]] | p :: ps => joined (cases p) (go ps) end) ps
  | PEith ps => (fix go ps := match ps with [] => [] | p :: ps => cases p ++ go ps end) ps
  end.
Definition repeated (p : pat) (l : leaf) : bool := existsb (fun c => 1 <? length (filter (leaf_eqb l) c)) (cases p).
(** fix_repeating_arguments(): a repeated leaf counts or lists *)
Definition fix_value (p : pat) (l : leaf) : value :=
  if repeated p l then
    match l with
    | LArg _ v => match v with VStr s => VStrs (words_of s) | VStrs _ => v | _ => VStrs [] end
    | LCmd _ _ => VLong 0
    | LOpt o => if o_takes o then match o_value o with VStr s => VStrs (words_of s) | VStrs x => VStrs x | _ => VStrs [] end else VLong 0
    end
  else leaf_value l.
Definition fix_leaf (p : pat) (l : leaf) : leaf :=
  match l with
  | LArg n _ => LArg n (fix_value p l)
  | LCmd n _ => LCmd n (fix_value p l)
  | LOpt o => LOpt (mkOpt (o_short o) (o_long o) (o_takes o) (fix_value p l))
  end.
Fixpoint map_leaves (g : leaf -> leaf) (p : pat) : pat :=
  match p with
  | PLeaf l => PLeaf (g l)
  | PReq ps => PReq (map (map_leaves g) ps)
  | POpt ps => POpt (map (map_leaves g) ps)
  | PEith ps => PEith (map (map_leaves g) ps)
  end.
Definition fix_pattern (p : pat) : pat := map_leaves (fix_leaf p) p.
Fixpoint leaves (p : pat) : list leaf :=
  match p with
  | PLeaf l => [l]
  | PReq ps | POpt ps | PEith ps => (fix go ps := match ps with [] => [] | p :: ps => leaves p ++ go ps end) ps
  end.

(** ** The command line *)
Inductive item := IWord (w : str) | IOpt (o : opt).
(** parse_argv() *)
Fixpoint parse_argv (fuel : nat) (toks : list str) (o : list opt) : option (list item) :=
  match fuel with
  | O => None
  | S n =>
    match toks with
    | [] => Some []
    | t :: toks' =>
      if str_eqb t dash2 then Some (map IWord toks)
      else if prefix_of dash2 t then
        match parse_long true t toks' o with Some (x, r, o) => option_map (cons (IOpt x)) (parse_argv n r o) | None => None end
      else if prefix_of [ch_dash] t && negb (str_eqb t [ch_dash]) then
        match parse_shorts true (tl t) toks' o with Some (xs, r, o) => option_map (app (map IOpt xs)) (parse_argv n r o) | None => None end
      else option_map (cons (IWord t)) (parse_argv n toks' o)
    end
  end.
(** extras() *)
Definition opt_set (n : str) (l : list item) : bool := existsb (fun i => match i with IOpt o => str_eqb (o_name o) n | IWord _ => false end) l.

(** ** Matching *)
(** single_match() of an argument, a command and an option: what is left and the value *)
Fixpoint take_word_item (l : list item) : option (str * list item) :=
  match l with
  | [] => None
  | IWord w :: l => Some (w, l)
  | i :: l => match take_word_item l with Some (w, r) => Some (w, i :: r) | None => None end
  end.
Fixpoint take_opt_item (n : str) (l : list item) : option (value * list item) :=
  match l with
  | [] => None
  | IOpt o :: l' => if str_eqb (o_name o) n then Some (o_value o, l')
                    else match take_opt_item n l' with Some (v, r) => Some (v, IOpt o :: r) | None => None end
  | i :: l => match take_opt_item n l with Some (v, r) => Some (v, i :: r) | None => None end
  end.
Definition single_match (p : leaf) (l : list item) : option (value * list item) :=
  match p with
  | LArg _ _ => option_map (fun e => (VStr (fst e), snd e)) (take_word_item l)
  | LCmd n _ => match take_word_item l with Some (w, r) => if str_eqb w n then Some (VBool true, r) else None | None => None end
  | LOpt o => take_opt_item (o_name o) l
  end.
(** LeafPattern::match *)
Fixpoint replace_value (c : list (str * value)) (n : str) (v : value) : list (str * value) :=
  match c with [] => [] | (k, x) :: c => if str_eqb k n then (k, v) :: c else (k, x) :: replace_value c n v end.
Definition collect (p : leaf) (v : value) (c : list (str * value)) : list (str * value) :=
  let n := leaf_name p in
  match leaf_value p with
  | VLong _ => match lookup c n with
               | None => c ++ [(n, VLong 1)]
               | Some (VLong k) => replace_value c n (VLong (1 + k))
               | Some _ => replace_value c n (VLong 1)
               end
  | VStrs _ => let x := match v with VStr s => [s] | VStrs l => l | _ => [] end in
               match lookup c n with
               | None => c ++ [(n, VStrs x)]
               | Some (VStrs l) => replace_value c n (VStrs (l ++ x))
               | Some _ => replace_value c n (VStrs x)
               end
  | _ => c ++ [(n, v)]
  end.
Definition state := (list item * list (str * value))%type.
(** Required, Optional and Either: the outcome with the least left, the first of these *)
Definition best (a b : option state) : option state :=
  match a, b with
  | Some x, Some y => if length (fst y) <? length (fst x) then b else a
  | None, _ => b
  | _, None => a
  end.
Fixpoint pmatch (p : pat) (s : state) : option state :=
  match p with
  | PLeaf l => match single_match l (fst s) with Some (v, r) => Some (r, collect l v (snd s)) | None => None end
  | PReq ps => (fix go ps s := match ps with [] => Some s | p :: ps => match pmatch p s with Some s => go ps s | None => None end end) ps s
  | POpt ps => Some ((fix go ps s := match ps with [] => s | p :: ps => go ps (match pmatch p s with Some s => s | None => s end) end) ps s)
  | PEith ps => (fix go ps := match ps with [] => None | p :: ps => best (pmatch p s) (go ps) end) ps
  end.
(** docopt::docopt with help and a version: the map, or exit *)
Definition docopt (doc : str) (argv : list str) : parsed :=
  match pattern_of doc with
  | None => PExit (-1)
  | Some (p, o) =>
    match parse_argv (S (length argv)) argv o with
    | None => PExit (-1)
    | Some l =>
      if opt_set (hdr "--help"%string) l || opt_set (hdr "-h"%string) l then PExit 0
      else if opt_set (hdr "--version"%string) l then PExit 0
      else let q := fix_pattern p in
           match pmatch q (l, []) with
           | Some ([], c) => PArgs (rev c ++ rev (map (fun x => (leaf_name x, leaf_value x)) (leaves q)))
           | _ => PExit (-1)
           end
    end
  end.
