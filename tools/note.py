"""python3 tools/note.py Cxx status note -- record a claim's status and note in tools/notes.json"""
import json, sys
p = 'tools/notes.json'
d = json.load(open(p))
d[sys.argv[1]] = {'status': sys.argv[2], 'note': sys.argv[3] if len(sys.argv) > 3 else ''}
json.dump(d, open(p, 'w'), indent=0, sort_keys=True)
