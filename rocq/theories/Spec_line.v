(** * Specification vocabulary for command lines: C95, C96.
    What a user types is read as words, flags and options with a value; nothing here refers to
    docopt. *)
From Coq Require Import Strings.String.
From Verif Require Import Base Dbl Handlers Spec_io Cli.
Import List.
Open Scope nat_scope.

(** ** What the words of a line mean *)
Inductive said := Word (w : str) | Flag (n : string) | Given (n : string) (v : str).
(** the documented options; true: with a value *)
Definition table := list (string * bool).
Definition begins (a s : str) : Prop := exists t, s = a ++ t.
(** [s] stands for the option [n]: in full, or by a beginning that no other option has *)
Definition stands_for (T : table) (s : str) (n : string) : Prop :=
  s = lit n \/ (begins s (lit n) /\ (forall m, In m (map fst T) -> s <> lit m) /\ (forall m, In m (map fst T) -> begins s (lit m) -> m = n)).
Definition an_option (T : table) (s : str) (n : string) (value : bool) : Prop :=
  begins (lit "--") s /\ In (n, value) T /\ stands_for T s n /\ forall c, In c s -> c <> "="%char.
Inductive reads (T : table) : list str -> list said -> Prop :=
| reads_end : reads T [] []
| reads_rest ws : reads T (lit "--" :: ws) (map Word (lit "--" :: ws))
| reads_word w ws l : ~ begins (lit "-") w \/ w = lit "-" -> reads T ws l -> reads T (w :: ws) (Word w :: l)
| reads_flag s n ws l : an_option T s n false -> reads T ws l -> reads T (s :: ws) (Flag n :: l)
| reads_joined s n v ws l : an_option T s n true -> reads T ws l -> reads T ((s ++ "="%char :: v) :: ws) (Given n v :: l)
| reads_apart s n v ws l : an_option T s n true -> v <> [] -> v <> lit "--" -> reads T ws l -> reads T (s :: v :: ws) (Given n v :: l).
Fixpoint words_said (l : list said) : list str :=
  match l with [] => [] | Word w :: l => w :: words_said l | _ :: l => words_said l end.
Fixpoint options_said (l : list said) : list string :=
  match l with [] => [] | Word _ :: l => options_said l | Flag n :: l | Given n _ :: l => n :: options_said l end.
Definition says (l : list said) (n : string) (b : bool) : Prop := b = true <-> In (Flag n) l.
Definition gave (l : list said) (n : string) (v : option str) : Prop := forall s, v = Some s <-> In (Given n s) l.

(** a word that may ask for help or for the version: -h, --help, --version or a part of these *)
Definition asks_help (s : str) : Prop := begins (lit "--h") s \/ begins (lit "--v") s \/ (begins (lit "-") s /\ ~ begins (lit "--") s /\ In "h"%char s).

(** ** orthoproject *)
Definition ortho_table : table :=
  [("--help", false); ("--version", false); ("--prune", false); ("--cache", false); ("--input-format", true); ("--graphs", false);
   ("--scene", false); ("--labels", false); ("--terrain", false); ("--pixel-size", true)]%string.
Record ortho_request := mkOrthoReq {
  rq_scene : str; rq_format : str; rq_prune : bool; rq_graphs : bool; rq_terrain : bool;
  rq_save : bool; rq_sum : bool; rq_labels : bool; rq_rasterize : bool; rq_pixel : option str }.
(** the line asks for [r]: the scene, then 'save' and 'rasterize' in this order if wanted; the
    options anywhere, each once *)
Record ortho_line (l : list said) (r : ortho_request) : Prop := {
  ol_words : words_said l = rq_scene r :: (if rq_save r then [lit "save"] else []) ++ (if rq_rasterize r then [lit "rasterize"] else []);
  ol_once : NoDup (options_said l);
  ol_known : incl (options_said l) ["--input-format"; "--prune"; "--graphs"; "--terrain"; "--scene"; "--labels"; "--pixel-size"]%string;
  ol_format : gave l "--input-format" (Some (rq_format r));
  ol_prune : says l "--prune" (rq_prune r);
  ol_graphs : says l "--graphs" (rq_graphs r);
  ol_terrain : says l "--terrain" (rq_terrain r);
  ol_sum : says l "--scene" (rq_sum r);
  ol_labels : says l "--labels" (rq_labels r);
  ol_pixel : gave l "--pixel-size" (rq_pixel r) }.
(** the arguments of the program for the request; the pixel size is the text read as a number,
    1 unless given, and 0 without 'rasterize' *)
Definition ortho_wants (stod : str -> outcome dbl) (r : ortho_request) (a : ortho_arguments) : Prop :=
  oa_path a = scene_path (rq_scene r) /\ oa_format a = rq_format r /\ oa_prune a = rq_prune r /\ oa_cache a = false /\
  oa_graphs a = rq_graphs r /\ oa_terrain a = rq_terrain r /\ oa_save a = rq_save r /\
  oa_sum a = rq_save r && rq_sum r /\ oa_labels a = rq_save r && rq_labels r /\
  if rq_rasterize r then stod (match rq_pixel r with Some s => s | None => lit "1" end) = Ok (oa_pixel a) else oa_pixel a = dofZ 0.

(** ** cityformat *)
Definition format_table : table :=
  [("--help", false); ("--version", false); ("--prune", false); ("--input-format", true); ("--graphs", false); ("--terrain", false);
   ("--output-format", true); ("--formats", false)]%string.
Record format_request := mkFormatReq {
  rf_scene : str; rf_format : str; rf_prune : bool; rf_graphs : bool; rf_terrain : bool; rf_out : option str; rf_outfmt : option str }.
(** the line asks for the conversion [r]: the scene, then the output path, with or without the word
    'output' before it *)
Record format_line (l : list said) (r : format_request) : Prop := {
  fl_words : exists rest, words_said l = rf_scene r :: rest /\
    ((rf_out r = None /\ (rest = [] \/ rest = [lit "output"])) \/
     exists p, rf_out r = Some p /\ ((rest = [p] /\ p <> lit "output") \/ rest = [lit "output"; p]));
  fl_once : NoDup (options_said l);
  fl_known : incl (options_said l) ["--input-format"; "--prune"; "--graphs"; "--terrain"; "--output-format"]%string;
  fl_format : gave l "--input-format" (Some (rf_format r));
  fl_prune : says l "--prune" (rf_prune r);
  fl_graphs : says l "--graphs" (rf_graphs r);
  fl_terrain : says l "--terrain" (rf_terrain r);
  fl_outfmt : gave l "--output-format" (rf_outfmt r) }.
Definition format_wants (r : format_request) (a : format_arguments) : Prop :=
  fa_path a = scene_path (rf_scene r) /\ fa_format a = rf_format r /\ fa_prune a = rf_prune r /\ fa_graphs a = rf_graphs r /\
  fa_terrain a = rf_terrain r /\ (exists p, rf_out r = Some p /\ fa_out a = path_of p) /\ rf_outfmt r = Some (fa_outfmt a).
