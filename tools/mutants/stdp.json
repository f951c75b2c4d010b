[
{"file":"Stdp_Model","def":"mantissa","old":"Z.max (Qfloor (Qabs x)) 1","new":"Z.max (Qceiling (Qabs x)) 1","edit":"mantissa rounded up","breaks":["C79"]},
{"file":"Stdp_Model","def":"mantissa","old":"Z.max (Qfloor (Qabs x)) 1","new":"Z.min (Qfloor (Qabs x)) 1","edit":"min instead of max","breaks":["C79"]},
{"file":"Stdp_Model","def":"float_to_literal","old":"show_int (qsign x * mantissa x)","new":"show_int (mantissa x)","edit":"sign dropped","breaks":["C79"]},
{"file":"Stdp_Model","def":"float_to_literal","old":"if Qeq_bool (remainder x) 1 then m ","new":"if Qle_bool 1 (remainder x) then m ","edit":"fraction ignored for parameters above 1","breaks":["C79"]},
{"file":"Stdp_Model","def":"round_log2","old":"(floor_log2 (r * r) + 1) / 2","new":"(floor_log2 (r * r)) / 2","edit":"logarithm rounded down","breaks":["C79"]},
{"file":"Stdp_Model","def":"stdp_dw","old":"float_to_literal a_minus ++ list_ascii_of_string \" * x0 * y1 +\"\n     ++ float_to_literal learning_rate ++ list_ascii_of_string \" * \" ++ float_to_literal a_plus ++ list_ascii_of_string \" * y0 * x1\").","new":"float_to_literal a_plus ++ list_ascii_of_string \" * x0 * y1 +\"\n     ++ float_to_literal learning_rate ++ list_ascii_of_string \" * \" ++ float_to_literal a_minus ++ list_ascii_of_string \" * y0 * x1\").","edit":"A_plus and A_minus swapped","breaks":["C79"]},
{"file":"Stdp_Model","def":"rstdp_dt","old":"\" * y0 * x1 - \"","new":"\" * y0 * x1 + \"","edit":"eligibility trace grows instead of decaying","breaks":["C79"]},
{"file":"Stdp_Model","def":"rstdp_dw","old":"\" u0 * t * y2 \"","new":"\" u0 * t * y1 \"","edit":"reward taken from y1","breaks":["C79"]},
{"file":"Stdp_Model","def":"decimal","old":"[digit_char (z mod 10)]","new":"[digit_char (z mod 8)]","edit":"wrong last digit","breaks":["C79"]},
{"file":"Stdp_Model","def":"float_to_literal","old":"\" * 2 ^ \"","new":"\" * 2 ^ -\"","edit":"exponent negated","breaks":["C79"]},
{"file":"Stdp_Model","def":"stdp_dw","old":"\" * x0 * y1 +\"","new":"\" * x0 * y1 -\"","edit":"second term subtracted","breaks":["C79"]}
]
