#!/usr/bin/env python3
"""usage: reg.py FILE.v < json  {id,title,statement,quantifier,why,anchors}: adds the property to mkprops.py, the file to _CoqProject"""
import sys, json, os
root = os.path.dirname(os.path.dirname(os.path.abspath(__file__)))
j = json.load(sys.stdin); p = root + '/tools/mkprops.py'; s = open(p).read()
new = 'p(%r, %r,\n  %r,\n  %r,\n  %r,\n  %r)\n' % (j['id'], j['title'], j['statement'], j['quantifier'], j['why'], j['anchors'])
assert ('p("%s"' % j['id']) not in s and ("p('%s'" % j['id']) not in s
s = s.replace('\nhere =', '\n' + new + 'here =', 1); open(p, 'w').write(s)
c = root + '/rocq/_CoqProject'; t = open(c).read()
if len(sys.argv) > 1 and 'theories/' + sys.argv[1] not in t: open(c, 'w').write(t.rstrip('\n') + '\ntheories/' + sys.argv[1] + '\n')
os.system(f'cd {root} && python3 tools/mkprops.py && python3 tools/mkmanifest.py')
