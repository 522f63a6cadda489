"""What was done about mutants that survived the theorems of the time (see seedlog.py)."""
TIGHTENED = {
 'a01': {'tightened': ['C44_native_ranges'], 'note': 'survived at first; theorem added, mutant re-run'},
 'a02': {'tightened': ['C44_native_ranges'], 'note': 'survived at first; theorem added, mutant re-run'},
 'a14': {'tightened': ['C45_empty_containers'], 'note': 'survived at first; theorem added, mutant re-run'},
 'v14': {'tightened': ['C14_get_with_source_agrees'], 'note': 'survived the first version; statement now names the nearest source'},
 'f01': {'note': 'control: an equivalent edit, no theorem is expected to fail'},
 'v05': {'note': 'control: an equivalent edit'},
 'f09': {'note': 'control: an equivalent edit'},
 's10': {'note': 'control: an equivalent edit'},
 'x28': {'tightened': ['C52_refused_iff_fault', 'C52_file_refused_iff_fault'], 'note': 'C51_file and C53_file failed at once, C52 did not: it used the function that was edited; now it spells the message out'},
 'x45': {'tightened': ['C08_get_type', 'C08_inner_types', 'C09_get_type'], 'note': 'survived at first (types of Tups were only compared with each other); theorems added, mutant re-run'},
 'u02': {'tightened': ['C45_from_vec'], 'note': 'survived at first; theorem added, mutant re-run'},
 'u04': {'tightened': ['C46_int_macro'], 'note': 'survived at first; theorem added, mutant re-run'},
}
