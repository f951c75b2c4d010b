[
 {
  "file": "AsyncSvc_Model",
  "def": "push",
  "old": "inq := inq p ++ c; outq := outq p",
  "new": "inq := c ++ inq p; outq := outq p",
  "edit": "commands overtake each other in the channel to an asynchronous process",
  "breaks": [
   "C86"
  ]
 },
 {
  "file": "AsyncSvc_Model",
  "def": "pop",
  "old": "outq := tl (outq p)",
  "new": "outq := []",
  "edit": "recv empties the whole channel",
  "breaks": [
   "C86"
  ]
 },
 {
  "file": "AsyncSvc_Model",
  "def": "any_ready",
  "old": "any_ready ps m || match outq",
  "new": "any_ready ps m && match outq",
  "edit": "select waits for all processes",
  "breaks": [
   "C86"
  ]
 },
 {
  "file": "AsyncSvc_Model",
  "def": "at_run",
  "old": "spos := x; running := b;",
  "new": "spos := x; running := negb b;",
  "edit": "run flag inverted",
  "breaks": [
   "C86"
  ]
 },
 {
  "file": "AsyncSvc_Model",
  "def": "all_are",
  "old": "forallb (Z.eqb x) l",
  "new": "existsb (Z.eqb x) l",
  "edit": "one DONE is enough for the group to be done",
  "breaks": [
   "C86"
  ]
 },
 {
  "file": "AsyncSvc_Model",
  "def": "raise",
  "old": "RRaised (is_started s) (is_running s) (results s ++ [Raised])",
  "new": "RReady (is_started s) (is_running s) (results s ++ [Raised])",
  "edit": "the runtime goes on after an error",
  "breaks": [
   "C86"
  ]
 },
 {
  "file": "AsyncSvc_Model",
  "def": "got",
  "old": "(results s ++ [Value buf])",
  "new": "(results s ++ [Value (tl buf)])",
  "edit": "get drops the first element",
  "breaks": [
   "C86"
  ]
 },
 {
  "file": "Atrlif_Model",
  "def": "max_iv",
  "old": "8388608",
  "new": "8388607",
  "edit": "wrap bound off by one",
  "breaks": [
   "C69"
  ]
 },
 {
  "file": "Bits_Model",
  "def": "is_mixed",
  "old": "Mixed => 1 | _ => 0",
  "new": "Mixed => 0 | _ => 1",
  "edit": "sign bit counted for the wrong modes",
  "breaks": [
   "C59"
  ]
 },
 {
  "file": "Bits_Model",
  "def": "np_min",
  "old": "lmin x r end",
  "new": "lmax x r end",
  "edit": "minimum is the maximum",
  "breaks": [
   "C59"
  ]
 },
 {
  "file": "Bits_Model",
  "def": "flog2",
  "old": "Z.log2 (p / q)",
  "new": "Z.log2_up (p / q)",
  "edit": "floor of the logarithm rounded up",
  "breaks": [
   "C59"
  ]
 },
 {
  "file": "Bits_Model",
  "def": "np_shl",
  "old": "(b <? 32)",
  "new": "(b <? 31)",
  "edit": "shift by 31 gives zero",
  "breaks": []
 },
 {
  "file": "Build_Model",
  "def": "lookup",
  "old": "if String.eqb n m then Some a else lookup n r",
  "new": "if String.eqb n m then lookup n r else Some a",
  "edit": "lookup inverted",
  "breaks": [
   "C89"
  ]
 },
 {
  "file": "Build_Model",
  "def": "prec_name",
  "old": "(\"_\" ++ n ++ \"_p\")",
  "new": "(n ++ \"_p\")",
  "edit": "precision stored under another name",
  "breaks": [
   "C89"
  ]
 },
 {
  "file": "Build_Model",
  "def": "read",
  "old": "(fst x =? id)%Z",
  "new": "true",
  "edit": "get answers with the first variable",
  "breaks": [
   "C89"
  ]
 },
 {
  "file": "Build_Model",
  "def": "var_get",
  "old": "None => Some (AInit (vinit v)) | Some m => read (vid v) m",
  "new": "None => Some (AInit (vinit v)) | Some m => Some (AInit (vinit v))",
  "edit": "get of a running network answers with the init value",
  "breaks": [
   "C89"
  ]
 },
 {
  "file": "ClpNet_Model",
  "def": "aval_dense",
  "old": "Conn_Model.message_bits := 0; Conn_Model.acc_bits := 32",
  "new": "Conn_Model.message_bits := 8; Conn_Model.acc_bits := 32",
  "edit": "allocation values sent as graded messages",
  "breaks": [
   "C87"
  ]
 },
 {
  "file": "ClpNet_Model",
  "def": "third_dense",
  "old": "Conn_Model.sign := None; Conn_Model.message_bits := 8;",
  "new": "Conn_Model.sign := None; Conn_Model.message_bits := 0;",
  "edit": "third factor sent as binary spikes",
  "breaks": [
   "C87"
  ]
 },
 {
  "file": "ClpNet_Model",
  "def": "dot",
  "old": "w k * p k",
  "new": "w k + p k",
  "edit": "dot product adds",
  "breaks": [
   "C87"
  ]
 },
 {
  "file": "ClpNet_Model",
  "def": "net_run",
  "old": "option_map fst (net_step C (Z.of_nat n) (inp k) (r k) s)",
  "new": "option_map fst (net_step C (Z.of_nat k) (inp k) (r k) s)",
  "edit": "time starts at 0",
  "breaks": [
   "C87"
  ]
 },
 {
  "file": "Clp_Model",
  "def": "nd_init",
  "old": "waiting := false; t_passed := 0; novelty_detected := false",
  "new": "waiting := true; t_passed := 0; novelty_detected := false",
  "edit": "detector waits from the start",
  "breaks": [
   "C50"
  ]
 },
 {
  "file": "Clp_Model",
  "def": "alloc_state",
  "old": "match t with O => first |",
  "new": "match t with O => first + 1 |",
  "edit": "first allocated id is one too high",
  "breaks": [
   "C51"
  ]
 },
 {
  "file": "Clp_Model",
  "def": "readout_init",
  "old": "proto_labels := labels; last_winner_id := 0",
  "new": "proto_labels := fun _ => 0; last_winner_id := 0",
  "edit": "given labels forgotten",
  "breaks": [
   "C52"
  ]
 },
 {
  "file": "Clp_Model",
  "def": "upd",
  "old": "if Nat.eqb j i then x else f j",
  "new": "if Nat.leb j i then x else f j",
  "edit": "labels of lower prototypes overwritten",
  "breaks": [
   "C52"
  ]
 },
 {
  "file": "Clp_Model",
  "def": "spiker_state",
  "old": "match t with O => 0 | S t' => fst (spiker_step",
  "new": "match t with O => 1 | S t' => fst (spiker_step",
  "edit": "counter starts at one",
  "breaks": [
   "C53"
  ]
 },
 {
  "file": "Codec_Model",
  "def": "evens",
  "old": "x :: _ :: r => x :: evens r",
  "new": "x :: y :: r => y :: evens r",
  "edit": "data and index words swapped",
  "breaks": [
   "C37"
  ]
 },
 {
  "file": "Codec_Model",
  "def": "gaps",
  "old": "(i, x) :: r => (i, x) :: gaps_after i r",
  "new": "(i, x) :: r => (0, x) :: gaps_after i r",
  "edit": "first index lost",
  "breaks": [
   "C37"
  ]
 },
 {
  "file": "Codec_Model",
  "def": "slice",
  "old": "firstn (b - a) (skipn a l)",
  "new": "firstn b (skipn a l)",
  "edit": "slice too long",
  "breaks": [
   "C37"
  ]
 },
 {
  "file": "Codec_Model",
  "def": "modg",
  "old": "fst e mod 255",
  "new": "fst e mod 256",
  "edit": "gap modulo 256",
  "breaks": [
   "C37"
  ]
 },
 {
  "file": "Codec_Model",
  "def": "pack",
  "old": "word p0 p1 p2 p3 :: pack r",
  "new": "word p3 p2 p1 p0 :: pack r",
  "edit": "byte order reversed",
  "breaks": [
   "C37"
  ]
 },
 {
  "file": "Codec_Model",
  "def": "encode_delta_sparse_8",
  "old": "(pack (pad 4 (map (fun t => Z.land (snd t) 255) ts)), pack (pad 4 (map (fun t => Z.land (fst t) 255) ts)))",
  "new": "(pack (pad 4 (map (fun t => Z.land (fst t) 255) ts)), pack (pad 4 (map (fun t => Z.land (snd t) 255) ts)))",
  "edit": "data and indices exchanged",
  "breaks": [
   "C37"
  ]
 },
 {
  "file": "Conn_Model",
  "def": "bitacc_set",
  "old": "weights := w; weights_set := weights_set st; a_buff",
  "new": "weights := w; weights_set := true; a_buff",
  "edit": "weights written at run time marked as truncated",
  "breaks": [
   "C60"
  ]
 },
 {
  "file": "Conn_Model",
  "def": "update_act",
  "old": "add_in wr (roll_left (zero_col0 c buf)) act",
  "new": "add_in wr (roll_left buf) act",
  "edit": "delivered column not cleared",
  "breaks": [
   "C40"
  ]
 },
 {
  "file": "Conn_Model",
  "def": "update_act",
  "old": "add_in wr (roll_left (zero_col0 c buf)) act",
  "new": "roll_left (add_in wr (zero_col0 c buf) act)",
  "edit": "input added before the roll",
  "breaks": [
   "C40"
  ]
 },
 {
  "file": "Conn_Model",
  "def": "spikes",
  "old": "if 0 <? bits then s else as_bool s",
  "new": "as_bool s",
  "edit": "graded spikes treated as binary",
  "breaks": [
   "C40"
  ]
 },
 {
  "file": "Conn_Model",
  "def": "spikes",
  "old": "if 0 <? bits then s else as_bool s",
  "new": "s",
  "edit": "binary mode passes payloads",
  "breaks": [
   "C40"
  ]
 },
 {
  "file": "Conn_Model",
  "def": "delay_step",
  "old": "(col0 (maxd + 1) n buf,",
  "new": "(col0 maxd n buf,",
  "edit": "wrong buffer width",
  "breaks": [
   "C40"
  ]
 },
 {
  "file": "Conn_Model",
  "def": "init_buf",
  "old": "repeat 0 (n * (maxd + 1))",
  "new": "repeat 1 (n * (maxd + 1))",
  "edit": "buffer starts with ones",
  "breaks": [
   "C40"
  ]
 },
 {
  "file": "Conn_Model",
  "def": "conv_time_step",
  "old": "(col0 (length w) n buf,",
  "new": "(col0 1 n buf,",
  "edit": "wrong buffer width in time convolution",
  "breaks": [
   "C40"
  ]
 },
 {
  "file": "Connect_Model",
  "def": "isinstance",
  "old": "| TAbstractSrcPort => match c with OutPort | RefPort => true",
  "new": "| TAbstractSrcPort => match c with OutPort => true",
  "edit": "RefPort is no source port",
  "breaks": [
   "C76"
  ],
  "tightened": [
   "connect_accepts_exactly",
   "connect_from_accepts_exactly"
  ]
 },
 {
  "file": "Connect_Model",
  "def": "isinstance",
  "old": "pclass_eqb c d || (pclass_eqb c ImplicitVarPort && pclass_eqb d VarPort)",
  "new": "pclass_eqb c d",
  "edit": "ImplicitVarPort is no VarPort",
  "breaks": [
   "C76"
  ],
  "tightened": [
   "connect_accepts_exactly",
   "connect_from_accepts_exactly"
  ]
 },
 {
  "file": "Connect_Model",
  "def": "is_disjoint",
  "old": "forallb (fun x => negb (existsb (Nat.eqb x) b)) a",
  "new": "true",
  "edit": "duplicate connections not noticed",
  "breaks": [
   "C21"
  ]
 },
 {
  "file": "Connect_Model",
  "def": "connect_forward",
  "old": "| Some g1 => fwd_loop g1 self (combine ports (spread configs (length ports)))",
  "new": "| Some g1 => (g1, None)",
  "edit": "back link not recorded",
  "breaks": [
   "C21"
  ]
 },
 {
  "file": "Connect_Model",
  "def": "arg_isinstance",
  "old": "| Many _ => false",
  "new": "| Many l => forallb (fun p => match nth_error g p with Some q => isinstance (cls q) t | None => false end) l",
  "edit": "lists of RefPorts checked too",
  "breaks": [
   "C76"
  ],
  "tightened": [
   "connect_accepts_exactly",
   "connect_from_accepts_exactly"
  ]
 },
 {
  "file": "Connect_Model",
  "def": "do_connect",
  "old": "| OutPort => connect_forward g self (to_list a) TAbstractIOPort configs true true\n      | InPort",
  "new": "| OutPort => connect_forward g self (to_list a) TAbstractIOPort configs false true\n      | InPort",
  "edit": "OutPort.connect does not check the shape",
  "breaks": [
   "C76"
  ]
 },
 {
  "file": "Connect_Model",
  "def": "do_connect",
  "old": "| InPort => connect_forward g self (to_list a) (TExact InPort) configs true true\n      | RefPort",
  "new": "| InPort => connect_forward g self (to_list a) TAbstractIOPort configs true true\n      | RefPort",
  "edit": "InPort.connect accepts OutPorts",
  "breaks": [
   "C76"
  ]
 },
 {
  "file": "Connect_Model",
  "def": "do_connect_from",
  "old": "| OutPort => connect_backward g self (to_list a) (TExact OutPort) configs true true",
  "new": "| OutPort => connect_forward g self (to_list a) (TExact OutPort) configs true true",
  "edit": "connect_from connects forward",
  "breaks": [
   "C21",
   "C54"
  ]
 },
 {
  "file": "Connect_Model",
  "def": "do_connect_var",
  "old": "if negb (pclass_eqb (cls sp) RefPort) then (g, Some EType) else",
  "new": "",
  "edit": "any port may connect to a Var",
  "breaks": [
   "C76"
  ]
 },
 {
  "file": "Connect_Model",
  "def": "implicit_ports",
  "old": "if list_eqb sh0 (v_shape v) then",
  "new": "if true then",
  "edit": "shapes of several Vars not compared",
  "breaks": []
 },
 {
  "file": "Connect_Model",
  "def": "implicit_ports",
  "old": "if v_shareable v then",
  "new": "if true then",
  "edit": "unshareable Vars accepted",
  "breaks": [
   "C76"
  ]
 },
 {
  "file": "Conv_Model",
  "def": "mesh",
  "old": "map (fun x => (x, y))",
  "new": "map (fun x => (y, x))",
  "edit": "mesh transposed",
  "breaks": [
   "C41"
  ]
 },
 {
  "file": "Conv_Model",
  "def": "srcs",
  "old": "src_id g (Z.to_nat (tap_x g x a)) (Z.to_nat (tap_y g y b)) c",
  "new": "src_id g (Z.to_nat (tap_x g x b)) (Z.to_nat (tap_y g y a)) c",
  "edit": "kernel taps transposed",
  "breaks": [
   "C41"
  ]
 },
 {
  "file": "Conv_Model",
  "def": "dsts",
  "old": "map (fun _ => dst_id g x y d) (channels (cin g) group grp)",
  "new": "map (fun _ => dst_id g y x d) (channels (cin g) group grp)",
  "edit": "output transposed",
  "breaks": [
   "C41"
  ]
 },
 {
  "file": "Conv_Model",
  "def": "loop",
  "old": "if valid g (fst loc) (snd loc) (fst tap) (snd tap)",
  "new": "if true",
  "edit": "padding taps kept",
  "breaks": [
   "C41"
  ]
 },
 {
  "file": "Exec_Model",
  "def": "out_chans",
  "old": "eqp (w_src w) (i, p)",
  "new": "Nat.eqb (fst (w_src w)) i",
  "edit": "every channel of the process sent to",
  "breaks": [
   "C81"
  ]
 },
 {
  "file": "Exec_Model",
  "def": "finished",
  "old": "match pc x with PFin _ => started x | _ => started x - 1 end",
  "new": "started x",
  "edit": "unfinished step counted",
  "breaks": [
   "C81"
  ]
 },
 {
  "file": "FloatLearn_Model",
  "def": "nadd",
  "old": "Some (x + y)%Q",
  "new": "Some (x - y)%Q",
  "edit": "sum is a difference",
  "breaks": [
   "C83"
  ]
 },
 {
  "file": "FloatLearn_Model",
  "def": "qsign",
  "old": "Lt => -1 | Eq => 0 | Gt => 1",
  "new": "Lt => -1 | Eq => 1 | Gt => 1",
  "edit": "sign of zero is one",
  "breaks": [
   "C83"
  ]
 },
 {
  "file": "FloatLearn_Model",
  "def": "build_rule",
  "old": "if applier_builds ps then Some (Some ps) else None",
  "new": "Some (Some ps)",
  "edit": "unknown factors accepted",
  "breaks": [
   "C83"
  ]
 },
 {
  "file": "FloatLearn_Model",
  "def": "nonzero",
  "old": "negb (Qeq_bool q 0)",
  "new": "true",
  "edit": "every synapse treated as a spike",
  "breaks": [
   "C83"
  ]
 },
 {
  "file": "FloatLearn_Model",
  "def": "fpre_x2",
  "old": "(0 <? tx) && nonzero a",
  "new": "nonzero a",
  "edit": "x2 updated at the first spike",
  "breaks": [
   "C83"
  ]
 },
 {
  "file": "FloatLearn_Model",
  "def": "spike_time",
  "old": "TX1 | TX2 => f_tx s n | _ => f_ty s n",
  "new": "TX1 => f_tx s n | _ => f_ty s n",
  "edit": "x2 uses the postsynaptic spike time",
  "breaks": [
   "C83"
  ]
 },
 {
  "file": "GetSet_Model",
  "def": "route",
  "old": "nth_error (mprocs c) i",
  "new": "nth_error (mprocs c) 0",
  "edit": "every request sent to the first process",
  "breaks": [
   "C13"
  ]
 },
 {
  "file": "GetSet_Model",
  "def": "pfinish",
  "old": "PDone (put_var vid w m)",
  "new": "PDone (put_var 0 w m)",
  "edit": "value stored in another variable",
  "breaks": [
   "C13"
  ]
 },
 {
  "file": "GetSet_Model",
  "def": "cgot",
  "old": "(length got <? n)%nat",
  "new": "(length got <? n - 1)%nat",
  "edit": "last element not received",
  "breaks": [
   "C14"
  ]
 },
 {
  "file": "GetSet_Model",
  "def": "ch_sp",
  "old": "(2 * K + 2 * g)%nat.  ",
  "new": "(2 * K)%nat.  ",
  "edit": "one channel for all processes",
  "breaks": [
   "C13"
  ]
 },
 {
  "file": "Graded_Model",
  "def": "conn_out",
  "old": "map w32 (a_buff c)",
  "new": "a_buff c",
  "edit": "output not wrapped to 32 bits",
  "breaks": []
 },
 {
  "file": "Graded_Model",
  "def": "inv_sqrt",
  "old": "iterate n fp s Y (Y / 2)",
  "new": "iterate n fp s Y Y",
  "edit": "Newton iteration starts with the wrong half",
  "breaks": [
   "C74"
  ]
 },
 {
  "file": "Graded_Model",
  "def": "net_init",
  "old": "weights := [repeat 1 n]; weights_set",
  "new": "weights := [repeat 2 n]; weights_set",
  "edit": "weights of the sum doubled",
  "breaks": [
   "C73"
  ]
 },
 {
  "file": "Graded_Model",
  "def": "sum_conn",
  "old": "Definition sum_conn : params :=\n  {| num_weight_bits := 8; Conn_Model.weight_exp := 0; sign := None; message_bits := 24;",
  "new": "Definition sum_conn : params :=\n  {| num_weight_bits := 8; Conn_Model.weight_exp := 0; sign := None; message_bits := 0;",
  "edit": "sum counts instead of adding",
  "breaks": [
   "C73"
  ]
 },
 {
  "file": "Groups_Model",
  "def": "succs",
  "old": "map snd (filter (fun e => node_eqb (fst e) n)",
  "new": "map fst (filter (fun e => node_eqb (snd e) n)",
  "edit": "successors are predecessors",
  "breaks": [
   "C27"
  ]
 },
 {
  "file": "Groups_Model",
  "def": "add_edge",
  "old": "if existsb (edge_eqb (u, v)) (edges g1) then g1 else",
  "new": "if true then g1 else",
  "edit": "edges not added",
  "breaks": [
   "C27"
  ]
 },
 {
  "file": "Groups_Model",
  "def": "subgraph",
  "old": "nmem (fst e) l && nmem (snd e) l",
  "new": "nmem (fst e) l",
  "edit": "subgraph keeps leaving edges",
  "breaks": [
   "C27"
  ]
 },
 {
  "file": "Groups_Model",
  "def": "of_type",
  "old": "GP p => mtype p =? t | GG _ => false",
  "new": "GP p => (mtype p =? t) || true | GG _ => false",
  "edit": "models of different types grouped",
  "breaks": [
   "C27"
  ]
 },
 {
  "file": "IoPolicy_Model",
  "def": "plus",
  "old": "None => v | Some a => add a v",
  "new": "None => v | Some a => (fun _ => v) (add a v)",
  "edit": "accumulate keeps the last item",
  "breaks": [
   "C46"
  ]
 },
 {
  "file": "Io_Model",
  "def": "put",
  "old": "| _ :: r, O => x :: r\n  | y :: r, S j => y :: put j x r",
  "new": "| y :: r, O => y :: r\n  | y :: r, S j => y :: put j x r",
  "edit": "sink drops the data",
  "breaks": [
   "C43"
  ]
 },
 {
  "file": "Kahn_Model",
  "def": "fire1",
  "old": "if length q <? cap N c then Some (l', OPush c v) else None",
  "new": "Some (l', OPush c v)",
  "edit": "send never blocks",
  "breaks": []
 },
 {
  "file": "Kahn_Model",
  "def": "called",
  "old": "PRE_MGMT => pre_guard W p u | LRN => lrn_guard W p u",
  "new": "PRE_MGMT => lrn_guard W p u | LRN => lrn_guard W p u",
  "edit": "pre management called on the learning guard - still a confluent program, expected to survive",
  "breaks": []
 },
 {
  "file": "Learning_Model",
  "def": "half_even",
  "old": "else if Z.even (a / 2) then a / 2 else a / 2 + 1",
  "new": "else a / 2 + 1",
  "edit": "ties rounded up",
  "breaks": [
   "C49"
  ],
  "tightened": [
   "graded_add_saturates_partial",
   "graded_overwrites_half"
  ]
 },
 {
  "file": "Learning_Model",
  "def": "dep_value",
  "old": "DX0 => a_x0 a | DY0 => a_y0 a",
  "new": "DX0 => a_y0 a | DY0 => a_x0 a",
  "edit": "dependencies exchanged",
  "breaks": [
   "C62"
  ]
 },
 {
  "file": "Learning_Model",
  "def": "clip_acc",
  "old": "clip (- 2 ^ 15 - 1) (2 ^ 15 - 1) x",
  "new": "clip (- 2 ^ 14 - 1) (2 ^ 14 - 1) x",
  "edit": "accumulator clipped to 15 bits",
  "breaks": [
   "C61"
  ]
 },
 {
  "file": "Learning_Model",
  "def": "conn_step",
  "old": "if lrn_guard (t_epoch c) t then learn_phase c t i s' else s'",
  "new": "if lrn_guard (t_epoch c) t then learn_phase c t i s else s'",
  "edit": "spikes of the last step of the epoch ignored",
  "breaks": [
   "C48",
   "C64"
  ]
 },
 {
  "file": "Learning_Model",
  "def": "y_hist",
  "old": "TY2 => y2 s n | TY3 => y3 s n | _ => y1 s n",
  "new": "TY2 => y2 s n | TY3 => y2 s n | _ => y1 s n",
  "edit": "y3 read as y2",
  "breaks": [
   "C64"
  ]
 },
 {
  "file": "Learning_Model",
  "def": "qlt",
  "old": "negb (Qle_bool p r)",
  "new": "Qle_bool r p",
  "edit": "stochastic rounding at equality",
  "breaks": [
   "C63"
  ]
 },
 {
  "file": "Lif_Model",
  "def": "max_uv",
  "old": "8388608.   (*",
  "new": "8388607.   (*",
  "edit": "24-bit bound off by one",
  "breaks": [
   "C32"
  ]
 },
 {
  "file": "Lif_Model",
  "def": "state_reset",
  "old": "state_reset P interval offset (t + 1) (fst",
  "new": "state_reset P interval offset t (fst",
  "edit": "time not advanced",
  "breaks": [
   "C57"
  ]
 },
 {
  "file": "Life_Model",
  "def": "send",
  "old": "inq := inq s ++ l; outq := outq s",
  "new": "inq := l ++ inq s; outq := outq s",
  "edit": "commands overtake each other",
  "breaks": [
   "C85"
  ]
 },
 {
  "file": "Mapper_Model",
  "def": "find",
  "old": "if k =? l then Some v else find r l",
  "new": "if k =? l then Some k else find r l",
  "edit": "logical core returned as physical core",
  "breaks": [
   "C31"
  ]
 },
 {
  "file": "Mapper_Model",
  "def": "assign_all",
  "old": "let '(s2, as_) := assign_all n s1 r in",
  "new": "let '(s2, as_) := assign_all n s r in",
  "edit": "state not carried from builder to builder",
  "breaks": [
   "C31"
  ]
 },
 {
  "file": "Monitor_Model",
  "def": "mon_proc",
  "old": "(inr (record m x), [])",
  "new": "(inr (Some m), [])",
  "edit": "monitor does not record",
  "breaks": [
   "C82"
  ]
 },
 {
  "file": "Monitor_Model",
  "def": "recorded",
  "old": "firstn (n_in m) (combine (lin m) (lv2 m))",
  "new": "firstn (n_ref m) (combine (lin m) (lv2 m))",
  "edit": "wrong number of recorded out ports",
  "breaks": [
   "C82"
  ]
 },
 {
  "file": "NetAlg_Model",
  "def": "eval",
  "old": "Done (s2, vb) => add s2 va vb | Raised => Raised end",
  "new": "Done (s2, vb) => add s2 vb va | Raised => Raised end",
  "edit": "operands of + exchanged",
  "breaks": [
   "C77"
  ]
 },
 {
  "file": "NetAlg_Model",
  "def": "shift",
  "old": "| VPlain _ => Raised",
  "new": "| VPlain _ => Done s",
  "edit": "y << 3 accepted",
  "breaks": [
   "C77"
  ]
 },
 {
  "file": "NetAlg_Model",
  "def": "exec1",
  "old": "if z =? x then Some v else fst c z",
  "new": "if z =? x then fst c z else Some v",
  "edit": "assignment to the wrong names",
  "breaks": [
   "C77"
  ]
 },
 {
  "file": "Network_Model",
  "def": "is_virtual",
  "old": "ReshapePort | TransposePort | ConcatPort => true",
  "new": "ReshapePort | TransposePort => true",
  "edit": "ConcatPort treated as a real port",
  "breaks": [
   "C28"
  ]
 },
 {
  "file": "Network_Model",
  "def": "channel_map",
  "old": "Some (dict_keys l)",
  "new": "Some l",
  "edit": "duplicate pairs kept",
  "breaks": [
   "C28"
  ]
 },
 {
  "file": "Process_Model",
  "def": "server_reset",
  "old": "Definition server_reset (s : server) : server := mkServer false true 0 [].",
  "new": "Definition server_reset (s : server) : server := s.",
  "edit": "reset of the server does nothing",
  "breaks": []
 },
 {
  "file": "Process_Model",
  "def": "session_step",
  "old": "(server_reset (server_call s), None)",
  "new": "(server_reset (server_call s), Some 0)",
  "edit": "reset registers an object",
  "breaks": [
   "C24"
  ]
 },
 {
  "file": "Process_Model",
  "def": "lookup",
  "old": "Some (snd e) | None => None",
  "new": "Some (fst e) | None => None",
  "edit": "parameter lookup returns the key",
  "breaks": [
   "C24"
  ]
 },
 {
  "file": "PyPorts_Model",
  "def": "vadd",
  "old": "(fst p + snd p)%Z",
  "new": "(fst p - snd p)%Z",
  "edit": "inputs subtracted",
  "breaks": [
   "C16"
  ]
 },
 {
  "file": "PyPorts_Model",
  "def": "in_recv",
  "old": "Definition in_recv (size : nat) (fs : list (list (vec -> vec))) (qs : list (list vec)) :=\n  take_all fs qs (repeat 0%Z size)",
  "new": "Definition in_recv (size : nat) (fs : list (list (vec -> vec))) (qs : list (list vec)) :=\n  take_all fs qs (repeat 1%Z size)",
  "edit": "sum starts at one",
  "breaks": [
   "C16"
  ]
 },
 {
  "file": "PyPorts_Model",
  "def": "upto",
  "old": "firstn (Z.to_nat n) l",
  "new": "firstn (Z.to_nat n + 1) l",
  "edit": "sparse message one element too long",
  "breaks": [
   "C18"
  ]
 },
 {
  "file": "Rule_Model",
  "def": "is_digit",
  "old": "<=? 57",
  "new": "<=? 56",
  "edit": "9 is no digit",
  "breaks": [
   "C65"
  ]
 },
 {
  "file": "Rule_Model",
  "def": "opt_sign",
  "old": "if is_char \"-\" c then (-1, r)",
  "new": "if is_char \"-\" c then (1, r)",
  "edit": "minus ignored",
  "breaks": [
   "C65"
  ]
 },
 {
  "file": "Rule_Model",
  "def": "find_uk",
  "old": "Found (SUk (digit_val c)) r",
  "new": "Found (SUk 0) r",
  "edit": "decimation exponent lost",
  "breaks": [
   "C65"
  ]
 },
 {
  "file": "Rule_Model",
  "def": "set_dep",
  "old": "g_dep := Some d; g_dec := g_dec g; g_mant",
  "new": "g_dep := g_dep g; g_dec := g_dec g; g_mant",
  "edit": "dependency not recorded",
  "breaks": [
   "C65"
  ]
 },
 {
  "file": "Rule_Model",
  "def": "is_sub",
  "old": "SSub => true | _ => false end.\n",
  "new": "SAdd => true | _ => false end.\n",
  "edit": "plus negates",
  "breaks": [
   "C65"
  ]
 },
 {
  "file": "Rule_Model",
  "def": "inner_var",
  "old": "SX0 => Some VX0 | SY0 => Some VY0 |",
  "new": "SX0 => Some VY0 | SY0 => Some VX0 |",
  "edit": "x0 and y0 exchanged",
  "breaks": [
   "C65"
  ]
 },
 {
  "file": "Rule_Model",
  "def": "lit_const",
  "old": "inject_Z (l_mant l) * pow2 (l_exp l)",
  "new": "inject_Z (l_mant l) * pow2 (- l_exp l)",
  "edit": "exponent negated",
  "breaks": [
   "C65"
  ]
 },
 {
  "file": "Rule_Model",
  "def": "py_half",
  "old": "Some (m / 2)",
  "new": "Some ((m + 1) / 2)",
  "edit": "mantissa rounded up",
  "breaks": [
   "C65"
  ]
 },
 {
  "file": "Rule_Model",
  "def": "parse_fuel",
  "old": "| Found y [] => Some [y]\n           | Found y r =>",
  "new": "| Found y [] => Some [y]\n           | Found y [_] => Some [y]\n           | Found y r =>",
  "edit": "last character ignored",
  "breaks": [
   "C65"
  ]
 },
 {
  "file": "Runtime_Model",
  "def": "pause_or_stop",
  "old": "if q_pause o then RReqPause else RReqStop",
  "new": "if q_pause o then RReqStop else RReqPause",
  "edit": "requests exchanged",
  "breaks": [
   "C10",
   "C11"
  ]
 },
 {
  "file": "S4d_Model",
  "def": "conn_weights",
  "old": "kron eye (fun _ => 1) d",
  "new": "kron eye (fun _ => 2) d",
  "edit": "expansion weights doubled",
  "breaks": [
   "C91"
  ]
 },
 {
  "file": "S4d_Model",
  "def": "dot",
  "old": "W i j * message graded (x j)",
  "new": "W j i * message graded (x j)",
  "edit": "matrix transposed",
  "breaks": [
   "C91"
  ]
 },
 {
  "file": "Sdn_Model",
  "def": "chain_step",
  "old": "(s', sigma_step (snd q) o)",
  "new": "(s', sigma_step (snd q) a)",
  "edit": "sigma sees the input",
  "breaks": [
   "C35"
  ]
 },
 {
  "file": "Sdn_Model",
  "def": "a_min",
  "old": "Z.shiftl (- 2 ^ (n - 1)) se",
  "new": "Z.shiftl (- 2 ^ n) se",
  "edit": "lower activation bound doubled",
  "breaks": [
   "C36"
  ]
 },
 {
  "file": "Select_Model",
  "def": "has_tag",
  "old": "existsb (Nat.eqb t) (tags m)",
  "new": "forallb (Nat.eqb t) (tags m)",
  "edit": "all tags must match",
  "breaks": [
   "C29"
  ]
 },
 {
  "file": "Stdp_Model",
  "def": "show_int",
  "old": "if z <? 0 then [\"-\"%char] else []",
  "new": "[]",
  "edit": "sign not printed",
  "breaks": [
   "C79"
  ]
 },
 {
  "file": "Stdp_Model",
  "def": "floor_log2",
  "old": "then k else k - 1",
  "new": "then k else k",
  "edit": "logarithm rounded up",
  "breaks": [
   "C79"
  ]
 },
 {
  "file": "Stdp_Model",
  "def": "remainder",
  "old": "Qabs x / inject_Z (mantissa x)",
  "new": "x / inject_Z (mantissa x)",
  "edit": "remainder keeps the sign",
  "breaks": [
   "C79"
  ]
 },
 {
  "file": "SyncDomain_Model",
  "def": "name_eqb",
  "old": "(x =? y) && Bool.eqb h k",
  "new": "(x =? y)",
  "edit": "Python and other processes share a default domain",
  "breaks": [
   "C30"
  ]
 },
 {
  "file": "SyncDomain_Model",
  "def": "create_sync_domains",
  "old": "Some s => Some (fold_left add_default procs s)",
  "new": "Some s => Some s",
  "edit": "no default domains",
  "breaks": [
   "C30"
  ]
 },
 {
  "file": "SyncDomain_Model",
  "def": "dedup",
  "old": "if existsb (name_eqb n) acc then acc else acc ++ [n]",
  "new": "acc ++ [n]",
  "edit": "two services for one domain",
  "breaks": [
   "C30"
  ]
 },
 {
  "file": "VPorts_Model",
  "def": "ravel",
  "old": "i * prod sh + ravel sh idx",
  "new": "i + prod sh * ravel sh idx",
  "edit": "column-major order",
  "breaks": [
   "C20"
  ]
 },
 {
  "file": "VPorts_Model",
  "def": "np_transpose",
  "old": "nth k (shape a) 0) perm in",
  "new": "nth k (shape a) 0) (rev perm) in",
  "edit": "shape of the transpose reversed",
  "breaks": [
   "C20"
  ]
 },
 {
  "file": "VPorts_Model",
  "def": "scatter",
  "old": "nth (index_of k perm) idx 0",
  "new": "nth k idx 0",
  "edit": "axes not permuted",
  "breaks": [
   "C20"
  ]
 },
 {
  "file": "VPorts_Model",
  "def": "derive",
  "old": "derive (vshape v) r",
  "new": "derive sh r",
  "edit": "second port sees the original shape",
  "breaks": [
   "C20"
  ]
 },
 {
  "file": "VPorts_Model",
  "def": "deliver_bwd",
  "old": "run_funcs (map bwd (outgoing chain))",
  "new": "run_funcs (map bwd (outgoing (rev chain)))",
  "edit": "backward functions in the wrong order",
  "breaks": [
   "C20"
  ]
 },
 {
  "file": "VPorts_Model",
  "def": "slice_pos",
  "old": "Z.to_nat (Z.of_nat n + a) else",
  "new": "Z.to_nat (- a) else",
  "edit": "negative slice bound wrong",
  "breaks": [
   "C22"
  ]
 },
 {
  "file": "Watchdog_Model",
  "def": "fire_thread",
  "old": "pool := set_nth (pool s) k (i, t')",
  "new": "pool := set_nth (pool s) 0 (i, t')",
  "edit": "wrong thread updated",
  "breaks": [
   "C93"
  ]
 },
 {
  "file": "Watchdog_Model",
  "def": "ended",
  "old": "TEnd => true | _ => false",
  "new": "TEnd => true | TPrint _ => true | _ => false",
  "edit": "printing thread counts as ended",
  "breaks": [
   "C93"
  ]
 }
]