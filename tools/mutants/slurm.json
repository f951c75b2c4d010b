[
 {
  "file": "Slurm_Model",
  "def": "Slurm_Model.try_run_command",
  "old": "| NotFound => (Raise FileNotFoundError, s')",
  "new": "| NotFound => (Ok [], s')",
  "edit": "every OSError is caught too",
  "breaks": [
   "C101"
  ]
 },
 {
  "file": "Slurm_Model",
  "def": "Slurm_Model.try_run_command",
  "old": "| Failed => (Ok [], s')",
  "new": "| Failed => (Ok [EmptyString], s')",
  "edit": "check=True is dropped: a failing command counts as output",
  "breaks": [
   "C101"
  ]
 },
 {
  "file": "Slurm_Model",
  "def": "Slurm_Model.is_in",
  "old": "match s with EmptyString => false | String _ s' => is_in sub s' end",
  "new": "match s with EmptyString => false | String _ s' => false end",
  "edit": "startswith instead of in",
  "breaks": [
   "C101"
  ]
 },
 {
  "file": "Slurm_Model",
  "def": "Slurm_Model.split_newline",
  "old": "if Ascii.eqb c newline then EmptyString :: split_newline t'",
  "new": "if Ascii.eqb c newline then split_newline t'",
  "edit": "newlines are dropped instead of split at",
  "breaks": [
   "C101"
  ]
 },
 {
  "file": "Slurm_Model",
  "def": "Slurm_Model.is_space",
  "old": "(Nat.leb 9 n && Nat.leb n 13) || (Nat.leb 28 n && Nat.leb n 32)",
  "new": "(Nat.leb 28 n && Nat.leb n 32)",
  "edit": "only blanks separate: tabs do not",
  "breaks": [
   "C101"
  ]
 },
 {
  "file": "Slurm_Model",
  "def": "Slurm_Model.enable",
  "old": "(env_pop (env_set (st_env s') \"SLURM\" \"1\") \"NOSLURM\")",
  "new": "(env_set (st_env s') \"SLURM\" \"1\")",
  "edit": "enable does not clear NOSLURM",
  "breaks": [
   "C101"
  ]
 },
 {
  "file": "Slurm_Model",
  "def": "Slurm_Model.enable",
  "old": "| (Ok false, s') => (Raise ValueError, s')\n  | (Ok true, s') => (Ok tt, with_env s'",
  "new": "| (Ok false, s') | (Ok true, s') => (Ok tt, with_env s'",
  "edit": "enable does not check availability",
  "breaks": [
   "C101"
  ]
 },
 {
  "file": "Slurm_Model",
  "def": "Slurm_Model.disable",
  "old": "env_set (env_pop (st_env s) \"SLURM\") \"NOSLURM\" \"1\"",
  "new": "env_set (st_env s) \"NOSLURM\" \"1\"",
  "edit": "disable does not clear SLURM",
  "breaks": [
   "C101"
  ]
 },
 {
  "file": "Slurm_Model",
  "def": "Slurm_Model.parse_board",
  "old": "nth_error fields 0, nth_error fields 2, nth_error fields 3",
  "new": "nth_error fields 0, nth_error fields 1, nth_error fields 3",
  "edit": "the partition is read from the wrong column",
  "breaks": [
   "C101"
  ]
 },
 {
  "file": "Slurm_Model",
  "def": "Slurm_Model.parse_board",
  "old": "| Some n, Some p, Some st => Ok (mkBoard n p st)",
  "new": "| Some n, Some p, Some st => Ok (mkBoard n st p)",
  "edit": "partition and state swapped",
  "breaks": [
   "C101"
  ]
 },
 {
  "file": "Slurm_Model",
  "def": "Slurm_Model.parse_partition",
  "old": "(nth 3 fields \"\") (nth 4 fields \"\")",
  "new": "(nth 4 fields \"\") (nth 3 fields \"\")",
  "edit": "nodes and state swapped",
  "breaks": [
   "C101"
  ]
 },
 {
  "file": "Slurm_Model",
  "def": "Slurm_Model.get_table",
  "old": "| (Ok (_ :: lines), s2) => (parse_all parse lines, s2)",
  "new": "| (Ok (h :: lines), s2) => (parse_all parse (h :: lines), s2)",
  "edit": "the header is parsed as a row",
  "breaks": [
   "C101"
  ]
 },
 {
  "file": "Slurm_Model",
  "def": "Slurm_Model.get_table",
  "old": "| (Ok [], s2) => (Raise IndexError, s2)            (* del lines[0] *)",
  "new": "| (Ok [], s2) => (Ok [], s2)",
  "edit": "an empty second answer is an empty table",
  "breaks": [
   "C101"
  ]
 },
 {
  "file": "Slurm_Model",
  "def": "Slurm_Model.get_board_info",
  "old": "(fun b => String.eqb (b_nodename b) name) bs)",
  "new": "(fun b => is_in name (b_nodename b)) bs)",
  "edit": "boards are matched by substring",
  "breaks": [
   "C101"
  ]
 },
 {
  "file": "Slurm_Model",
  "def": "Slurm_Model.get_board_info",
  "old": "hd_error (filter (fun b => String.eqb (b_nodename b) name) bs)",
  "new": "hd_error (List.rev (filter (fun b => String.eqb (b_nodename b) name) bs))",
  "edit": "the last match is taken instead of the first",
  "breaks": [
   "C101"
  ]
 },
 {
  "file": "Slurm_Model",
  "def": "Slurm_Model.other_partition",
  "old": "negb (String.eqb q \"\") && negb (String.eqb q p)",
  "new": "negb (String.eqb q p)",
  "edit": "an empty partition is compared too",
  "breaks": [
   "C101"
  ]
 },
 {
  "file": "Slurm_Model",
  "def": "Slurm_Model.set_board",
  "old": "if is_in \"down\" (b_state i) then (Raise ValueError, s')\n          else if",
  "new": "if",
  "edit": "boards that are down are accepted",
  "breaks": [
   "C101"
  ]
 },
 {
  "file": "Slurm_Model",
  "def": "Slurm_Model.set_board",
  "old": "env_set (st_env s') \"BOARD\" b",
  "new": "env_set (st_env s') \"BOARD\" (b_nodename i ++ b_partition i)",
  "edit": "BOARD is set to node and partition",
  "breaks": [
   "C101"
  ]
 },
 {
  "file": "Slurm_Model",
  "def": "Slurm_Model.set_board",
  "old": "(Ok tt, with_env s (env_pop (st_env s) \"BOARD\"))",
  "new": "(Ok tt, s)",
  "edit": "None leaves the board set",
  "breaks": [
   "C101"
  ]
 },
 {
  "file": "Slurm_Model",
  "def": "Slurm_Model.set_partition",
  "old": "if is_in \"down\" (p_state i) then",
  "new": "if is_in \"down\" (p_available i) then",
  "edit": "AVAIL is checked instead of STATE",
  "breaks": [
   "C101"
  ]
 },
 {
  "file": "Slurm_Model",
  "def": "Slurm_Model.set_partition",
  "old": "(env_set (st_env s') \"PARTITION\" p)",
  "new": "(env_set (st_env s') \"BOARD\" p)",
  "edit": "the partition is stored as the board",
  "breaks": [
   "C101"
  ]
 },
 {
  "file": "Slurm_Model",
  "def": "Slurm_Model.use_slurm_host",
  "old": "match set_board m board part s2 with",
  "new": "match set_board m part board s2 with",
  "edit": "board and partition swapped",
  "breaks": [
   "C101"
  ]
 },
 {
  "file": "Slurm_Model",
  "def": "Slurm_Model.use_slurm_host",
  "old": "(Ok tt, with_host s4 \"SLURM\")",
  "new": "(Ok tt, s4)",
  "edit": "host is not recorded (global missing)",
  "breaks": [
   "C101"
  ]
 },
 {
  "file": "Slurm_Model",
  "def": "Slurm_Model.use_slurm_host",
  "old": "  if negb (is_installed m s) then (Raise ImportError, s) else\n  match enable",
  "new": "  match enable",
  "edit": "no check for lava-loihi",
  "breaks": [
   "C101"
  ]
 },
 {
  "file": "Slurm_Model",
  "def": "Slurm_Model.use_slurm_host",
  "old": "| (Raise e, s3) => (Raise e, s3)",
  "new": "| (Raise e, s3) => (Raise e, with_host s3 \"SLURM\")",
  "edit": "host is recorded before the board is checked",
  "breaks": [
   "C101"
  ]
 },
 {
  "file": "Slurm_Model",
  "def": "Slurm_Model.use_ethernet_host",
  "old": "let s2 := disable s1 in",
  "new": "let s2 := s1 in",
  "edit": "SLURM is not disabled",
  "breaks": [
   "C101"
  ]
 },
 {
  "file": "Slurm_Model",
  "def": "Slurm_Model.use_ethernet_host",
  "old": "\"NXSDKHOST\" addr) in",
  "new": "\"NXSDKHOST\" \"localhost\") in",
  "edit": "a fixed address is used",
  "breaks": [
   "C101"
  ]
 },
 {
  "file": "Slurm_Model",
  "def": "Slurm_Model.use_ethernet_host",
  "old": "\"ETHERNET\")",
  "new": "\"SLURM\")",
  "edit": "wrong host recorded",
  "breaks": [
   "C101"
  ]
 },
 {
  "file": "Slurm_Model",
  "def": "Slurm_Model.use_ethernet_host",
  "old": "| (Ok [], s1) => (Raise ValueError, s1)\n  | (Ok (_ :: _), s1) =>",
  "new": "| (Ok _, s1) =>",
  "edit": "ping may fail",
  "breaks": [
   "C101"
  ]
 }
]